(** C158: the exploded mesh viewer. *)
From Verif Require Import Base Num AdaptiveGrid Exploder PropsExploder ExplodedViewer.
Set Implicit Arguments.
Local Open Scope Z_scope.
Lemma Some_inj (A : Type) (a b : A) : Some a = Some b -> a = b. Proof. congruence. Qed.

Lemma set_nth_length (A : Type) (l : list A) n a : length (set_nth l n a) = length l.
Proof. revert n. induction l as [|x l IH]; intros [|n]; cbn; auto. Qed.
Lemma set_nth_nth (A : Type) (l : list A) n a k : nth_error (set_nth l n a) k = if (k =? n)%nat then (if (n <? length l)%nat then Some a else None) else nth_error l k.
Proof.
  revert n k. induction l as [|x l IH]; intros [|n] [|k]; cbn; auto.
  - destruct (k =? n)%nat; auto.
  - rewrite IH. reflexivity.
Qed.
Lemma is_nil_iff (A : Type) (l : list A) : is_nil l = true <-> l = [].
Proof. destruct l; cbn; split; congruence. Qed.
Lemma is_nil_flat (A B : Type) (g h : A -> list B) l : (forall a, In a l -> is_nil (g a) = is_nil (h a)) -> is_nil (flat_map g l) = is_nil (flat_map h l).
Proof.
  induction l as [|a l IH]; intros H; auto. cbn [flat_map]. assert (E := H a (or_introl eq_refl)). destruct (g a), (h a); try discriminate; cbn; auto. apply IH. intros b I. apply H. right. auto.
Qed.
Lemma mesh_V_nil e t s s' u : is_nil (mesh_V (set_centers t e) s' u) = is_nil (mesh_V e s u) /\ is_nil (mesh_V e s' u) = is_nil (mesh_V e s u).
Proof.
  split; unfold mesh_V; apply is_nil_flat; intros [i r] _; destruct (valid_region r u); auto; unfold cell_V; cbn [set_centers ex_Vs]; destruct (nth i (ex_Vs e) []); auto.
Qed.
Lemma mesh_F_centers e t u : mesh_F (set_centers t e) u = mesh_F e u.
Proof. reflexivity. Qed.
Lemma enum_nat_nth (A : Type) (l : list A) i a : nth_error (enum_nat l) i = Some a <-> exists x, a = (i, x) /\ nth_error l i = Some x.
Proof.
  unfold enum_nat. assert (G : forall (l : list A) k i a, nth_error (combine (seq k (length l)) l) i = Some a <-> exists x, a = ((k + i)%nat, x) /\ nth_error l i = Some x).
  { clear. induction l as [|y l IH]; intros k [|i] a; cbn [length seq combine nth_error].
    - split; [discriminate|]. intros (x & _ & H). discriminate.
    - split; [discriminate|]. intros (x & _ & H). discriminate.
    - rewrite Nat.add_0_r. split; [intros [= <-]; eauto|]. intros (x & -> & [= <-]). auto.
    - rewrite IH. split; intros (x & E & H); exists x; split; auto; rewrite E; f_equal; lia. }
  apply (G l 0%nat i a).
Qed.

Section W.
  Variables (slice_of : list q3 -> list c3 -> q3 -> q3 -> tri) (slice_cols : list q3 -> list c3 -> q3 -> q3 -> list (option rgb) -> list (option rgb)).
  Let step := xstep slice_of slice_cols.
  Let run := xrun slice_of slice_cols.
  Let start := xstart slice_of slice_cols.
  Let update := update_exploded slice_of slice_cols.
  Let cbuf := region_cbuf slice_cols.
  Definition view (s : xst) (r : Z) : tri :=
    if x_slice s then slice_of (mesh_V (x_e s) (x_scale s) [r]) (mesh_F (x_e s) [r]) (x_org s) (x_dir s) else (mesh_V (x_e s) (x_scale s) [r], mesh_F (x_e s) [r]).
  Definition has_mesh (s : xst) (r : Z) : bool := negb (is_nil (mesh_V (x_e s) (x_scale s) [r])) && negb (is_nil (mesh_F (x_e s) [r])).
  Definition fresh (s : xst) : Prop :=
    length (x_bufs s) = length (x_regs s) /\ (forall i r, nth_error (x_regs s) i = Some r -> nth_error (x_bufs s) i = Some (if has_mesh s r then view s r else ([], []))) /\
    x_cbufs s = map (cbuf s) (x_regs s).
  (** one pass of update_exploded over the regions *)
  Lemma pass_frame s l k c0 b0 : let '(c, b) := fold_left (update_region slice_of s) (combine (seq k (length l)) l) (c0, b0) in
    length b = length b0 /\ (forall i, (i < k)%nat -> nth_error b i = nth_error b0 i) /\ ((k + length l <= length b0)%nat -> forall i r, nth_error l i = Some r -> nth_error b (k + i) = if has_mesh s r then Some (view s r) else nth_error b0 (k + i)) /\
    c = match (if x_multi s && (Z.of_nat k <=? x_index s) then nth_error l (Z.to_nat (x_index s) - k) else None) with Some r => if has_mesh s r then view s r else c0 | None => c0 end.
  Proof.
    revert k c0 b0. induction l as [|r l IH]; intros k c0 b0; cbn [length seq combine fold_left].
    - split; auto. split; auto. split; [intros _ i r H; destruct i; discriminate|]. destruct (_ && _); auto. destruct (_ - k)%nat; auto.
    - unfold update_region at 2. fold (has_mesh s r). fold (view s r). cbn [fst snd].
      set (c1 := if x_multi s && (x_index s =? Z.of_nat k) then view s r else c0). assert (E : (if has_mesh s r then (c1, set_nth b0 k (view s r)) else (c0, b0)) = (if has_mesh s r then c1 else c0, if has_mesh s r then set_nth b0 k (view s r) else b0)) by (destruct (has_mesh s r); auto).
      rewrite E. clear E. specialize (IH (S k) (if has_mesh s r then c1 else c0) (if has_mesh s r then set_nth b0 k (view s r) else b0)).
      destruct (fold_left _ _ _) as [c b]. destruct IH as (L & P & Q & R). assert (LB : length (if has_mesh s r then set_nth b0 k (view s r) else b0) = length b0) by (destruct (has_mesh s r); auto; apply set_nth_length).
      split; [congruence|]. split; [|split].
      + intros i Hi. rewrite P by lia. destruct (has_mesh s r); auto. rewrite set_nth_nth. destruct (Nat.eqb_spec i k); [lia|auto].
      + intros HK i r' Hi. destruct i as [|i]; cbn [nth_error] in Hi.
        * apply Some_inj in Hi as <-. rewrite Nat.add_0_r, P by lia. destruct (has_mesh s r); auto. rewrite set_nth_nth, Nat.eqb_refl. destruct (Nat.ltb_spec k (length b0)); [auto|lia].
        * replace (k + S i)%nat with (S k + i)%nat by lia. rewrite (Q ltac:(rewrite LB; lia) i r' Hi). destruct (has_mesh s r'); auto. destruct (has_mesh s r); auto. rewrite set_nth_nth. destruct (Nat.eqb_spec (S k + i) k); [lia|auto].
      + rewrite R. unfold c1. destruct (x_multi s); cbn [andb]; [|destruct (has_mesh s r); auto].
        destruct (Z.eqb_spec (x_index s) (Z.of_nat k)) as [EI|NI].
        * destruct (Z.leb_spec (Z.of_nat (S k)) (x_index s)); [lia|]. destruct (Z.leb_spec (Z.of_nat k) (x_index s)); [|lia]. replace (Z.to_nat (x_index s) - k)%nat with 0%nat by lia. reflexivity.
        * destruct (Z.leb_spec (Z.of_nat (S k)) (x_index s)).
          -- destruct (Z.leb_spec (Z.of_nat k) (x_index s)); [|lia]. replace (Z.to_nat (x_index s) - k)%nat with (S (Z.to_nat (x_index s) - S k)) by lia. cbn [nth_error]. destruct (nth_error l _) as [r'|]; [|destruct (has_mesh s r); auto]. destruct (has_mesh s r'); auto. destruct (has_mesh s r); auto.
          -- destruct (Z.leb_spec (Z.of_nat k) (x_index s)); [lia|]. destruct (has_mesh s r); auto.
  Qed.
  Lemma update_spec s : length (x_bufs s) = length (x_regs s) -> let s' := update s in
    (x_e s', x_regs s', x_cols s', x_slice s', x_multi s', x_index s', x_scale s', x_org s', x_dir s', x_out s') = (x_e s, x_regs s, x_cols s, x_slice s, x_multi s, x_index s, x_scale s, x_org s, x_dir s, x_out s) /\
    length (x_bufs s') = length (x_regs s) /\ (forall i r, nth_error (x_regs s) i = Some r -> nth_error (x_bufs s') i = if has_mesh s r then Some (view s r) else nth_error (x_bufs s) i) /\
    x_cbufs s' = map (cbuf s') (x_regs s') /\
    x_cache s' = match (if x_multi s && (0 <=? x_index s) then nth_error (x_regs s) (Z.to_nat (x_index s)) else None) with Some r => if has_mesh s r then view s r else x_cache s | None => x_cache s end.
  Proof.
    intros LB. assert (P := pass_frame s (x_regs s) 0 (x_cache s) (x_bufs s)). unfold update, update_exploded, enum_nat. destruct (fold_left _ _ _) as [c b]. destruct P as (L & _ & Q & R). cbn. split; [reflexivity|]. split; [lia|]. split.
    - intros i r H. apply Q; auto. lia.
    - split; [reflexivity|]. rewrite R. rewrite Nat.sub_0_r. reflexivity.
  Qed.
  Definition same_shape (s s' : xst) : Prop := x_regs s' = x_regs s /\ forall r, has_mesh s' r = has_mesh s r.
  Definition pre (s : xst) : Prop := length (x_bufs s) = length (x_regs s) /\ forall i r, nth_error (x_regs s) i = Some r -> has_mesh s r = false -> nth_error (x_bufs s) i = Some ([], []).
  Lemma fresh_pre s : fresh s -> pre s.
  Proof. intros (L & B & _). split; auto. intros i r H F. rewrite (B i r H), F. auto. Qed.
  Lemma update_fresh s : pre s -> fresh (update s).
  Proof.
    intros (L & B). assert (U := update_spec s L). cbv zeta in U. destruct U as (E & LU & BU & CU & _). injection E as E1 E2 E3 E4 E5 E6 E7 E8 E9 E10.
    split; [congruence|]. split; [|congruence]. intros i r H. rewrite E2 in H. rewrite (BU i r H). assert (HM : has_mesh (update s) r = has_mesh s r) by (unfold has_mesh; rewrite E1, E7; reflexivity). assert (HV : view (update s) r = view s r) by (unfold view; rewrite E1, E4, E7, E8, E9; reflexivity). rewrite HM, HV.
    destruct (has_mesh s r) eqn:M; [reflexivity|]. exact (B i r H M).
  Qed.
  Lemma pre_view s e sl sc o d : pre s -> (e = x_e s \/ exists t, e = set_centers t (x_e s)) -> pre (with_view s e sl sc o d).
  Proof.
    intros (L & B) E. split; [exact L|]. intros i r H M. cbn [with_view x_bufs x_regs] in *. apply (B i r H). unfold has_mesh in *. cbn [with_view x_e x_scale] in M. destruct E as [->|[t ->]].
    - rewrite (proj2 (mesh_V_nil (x_e s) 0%Qc (x_scale s) sc [r])) in M. exact M.
    - rewrite (proj1 (mesh_V_nil (x_e s) t (x_scale s) sc [r])), mesh_F_centers in M. exact M.
  Qed.
  Lemma step_fresh s e s' : fresh s -> step s e = Some s' -> fresh s'.
  Proof.
    intros F H. assert (P := fresh_pre F). destruct e; cbn [step xstep] in H; unfold step in H; cbn [xstep] in H; fold update in H.
    - apply Some_inj in H as <-. apply update_fresh, pre_view; auto.
    - apply Some_inj in H as <-. exact F.
    - apply Some_inj in H as <-. destruct (x_multi s); exact F.
    - apply Some_inj in H as <-. apply update_fresh. auto.
    - apply Some_inj in H as <-. destruct F as (F1 & F2 & F3). split; [exact F1|]. split; [exact F2|reflexivity].
    - destruct (region_colors3 _) as [c|]; [|discriminate]. apply Some_inj in H as <-. destruct F as (F1 & F2 & F3). split; [exact F1|]. split; [exact F2|reflexivity].
    - apply Some_inj in H as <-. apply update_fresh, pre_view; auto.
    - apply Some_inj in H as <-. apply update_fresh, pre_view; auto.
    - apply Some_inj in H as <-. apply update_fresh, pre_view; auto.
    - apply Some_inj in H as <-. apply update_fresh, pre_view; eauto.
    - apply Some_inj in H as <-. apply update_fresh in P. exact P.
  Qed.
  Lemma start_fresh e regs c : fresh (start e regs c).
  Proof.
    apply update_fresh. split; cbn [x_bufs x_regs].
    - apply repeat_length.
    - intros i r H _. apply nth_error_repeat. apply nth_error_Some. congruence.
  Qed.
  Lemma run_fresh es : forall s s', fresh s -> run s es = Some s' -> fresh s'.
  Proof.
    induction es as [|e es IH]; intros s s' F H; unfold run in H; cbn [xrun] in H; [apply Some_inj in H as <-; auto|]. fold step in H. destruct (step s e) as [s1|] eqn:E; [|discriminate]. apply (IH s1); auto. eapply step_fresh; eauto.
  Qed.
  (** *** C158 *)
  (** the controls hold the value last given to them *)
  Definition last_of (A : Type) (f : xevent -> option A) (a : A) (es : list xevent) : A := fold_left (fun a e => match f e with Some x => x | None => a end) es a.
  Lemma step_controls s e s' : fresh s -> step s e = Some s' -> x_regs s' = x_regs s /\
    x_slice s' = match e with XSlice b => b | _ => x_slice s end /\ x_scale s' = match e with XScale v => v | _ => x_scale s end /\ x_org s' = match e with XOrigin v => v | _ => x_org s end /\
    x_dir s' = match e with XDirection v => v | _ => x_dir s end /\ x_multi s' = match e with XMulti v => v | _ => x_multi s end /\ x_index s' = match e with XIndex v => if x_multi s then v else x_index s | _ => x_index s end /\
    x_e s' = match e with XCenters t => set_centers t (x_e s) | _ => x_e s end /\ x_out s' = match e with XSave => Some (x_cache s') | _ => x_out s end /\
    x_cols s' = match e with XRandom c => c | XRegion => match region_colors3 (ex_regions (x_e s)) with Some c => c | None => x_cols s end | _ => x_cols s end.
  Proof.
    intros F H. assert (G : forall e sl sc o d, (x_e (update (with_view s e sl sc o d)), x_regs (update (with_view s e sl sc o d)), x_cols (update (with_view s e sl sc o d)), x_slice (update (with_view s e sl sc o d)), x_multi (update (with_view s e sl sc o d)), x_index (update (with_view s e sl sc o d)), x_scale (update (with_view s e sl sc o d)), x_org (update (with_view s e sl sc o d)), x_dir (update (with_view s e sl sc o d)), x_out (update (with_view s e sl sc o d))) =
      (e, x_regs s, x_cols s, sl, x_multi s, x_index s, sc, o, d, x_out s)).
    { intros. destruct F as (L & _). exact (proj1 (update_spec (with_view s e0 sl sc o d) L)). }
    assert (G0 : (x_e (update s), x_regs (update s), x_cols (update s), x_slice (update s), x_multi (update s), x_index (update s), x_scale (update s), x_org (update s), x_dir (update s), x_out (update s)) = (x_e s, x_regs s, x_cols s, x_slice s, x_multi s, x_index s, x_scale s, x_org s, x_dir s, x_out s)).
    { destruct F as (L & _). exact (proj1 (update_spec s L)). }
    destruct e; unfold step in H; cbn [xstep] in H; fold update in H.
    - apply Some_inj in H as <-. specialize (G (x_e s) b (x_scale s) (x_org s) (x_dir s)). injection G as A1 A2 A3 A4 A5 A6 A7 A8 A9 A10. repeat split; assumption.
    - apply Some_inj in H as <-. repeat split.
    - apply Some_inj in H as <-. destruct (x_multi s) eqn:M; cbn; rewrite ?M; repeat split.
    - apply Some_inj in H as <-. injection G0 as A1 A2 A3 A4 A5 A6 A7 A8 A9 A10. repeat split; assumption.
    - apply Some_inj in H as <-. repeat split.
    - destruct (region_colors3 _) as [c|]; [|discriminate]. apply Some_inj in H as <-. repeat split.
    - apply Some_inj in H as <-. specialize (G (x_e s) (x_slice s) (x_scale s) o (x_dir s)). injection G as A1 A2 A3 A4 A5 A6 A7 A8 A9 A10. repeat split; assumption.
    - apply Some_inj in H as <-. specialize (G (x_e s) (x_slice s) (x_scale s) (x_org s) d). injection G as A1 A2 A3 A4 A5 A6 A7 A8 A9 A10. repeat split; assumption.
    - apply Some_inj in H as <-. specialize (G (x_e s) (x_slice s) s0 (x_org s) (x_dir s)). injection G as A1 A2 A3 A4 A5 A6 A7 A8 A9 A10. repeat split; assumption.
    - apply Some_inj in H as <-. specialize (G (set_centers t (x_e s)) (x_slice s) (x_scale s) (x_org s) (x_dir s)). injection G as A1 A2 A3 A4 A5 A6 A7 A8 A9 A10. repeat split; assumption.
    - apply Some_inj in H as <-. injection G0 as A1 A2 A3 A4 A5 A6 A7 A8 A9 A10. cbn [with_out x_e x_regs x_cols x_slice x_multi x_index x_scale x_org x_dir x_out x_cache]. repeat split; assumption.
  Qed.
  Theorem c158_controls : forall e regs c es s, run (start e regs c) es = Some s ->
    x_regs s = regs /\ x_slice s = last_of (fun v => match v with XSlice b => Some b | _ => None end) false es /\
    x_scale s = last_of (fun v => match v with XScale b => Some b | _ => None end) (Q2Qc (11 # 10)) es /\
    x_org s = last_of (fun v => match v with XOrigin b => Some b | _ => None end) (0, 0, Q2Qc (-1 # 10))%Qc es /\
    x_dir s = last_of (fun v => match v with XDirection b => Some b | _ => None end) (0, 0, - (1))%Qc es /\
    x_multi s = last_of (fun v => match v with XMulti b => Some b | _ => None end) false es /\
    x_e s = last_of (fun v => match v with XCenters t => Some (set_centers t e) | _ => None end) e es.
  Proof.
    intros e regs c es. assert (G : forall es s0 s, fresh s0 -> (x_e s0 = e \/ exists t, x_e s0 = set_centers t e) -> run s0 es = Some s ->
      x_regs s = x_regs s0 /\ x_slice s = last_of (fun v => match v with XSlice b => Some b | _ => None end) (x_slice s0) es /\
      x_scale s = last_of (fun v => match v with XScale b => Some b | _ => None end) (x_scale s0) es /\
      x_org s = last_of (fun v => match v with XOrigin b => Some b | _ => None end) (x_org s0) es /\
      x_dir s = last_of (fun v => match v with XDirection b => Some b | _ => None end) (x_dir s0) es /\
      x_multi s = last_of (fun v => match v with XMulti b => Some b | _ => None end) (x_multi s0) es /\
      x_e s = last_of (fun v => match v with XCenters t => Some (set_centers t e) | _ => None end) (x_e s0) es).
    { clear es. induction es as [|ev es IH]; intros s0 s F E H; unfold run in H; cbn [xrun] in H; [apply Some_inj in H as <-; repeat split|]. fold step in H. destruct (step s0 ev) as [s1|] eqn:ES; [|discriminate].
      destruct (step_controls ev F ES) as (A1 & A2 & A3 & A4 & A5 & A6 & _ & A7 & _). assert (E1 : x_e s1 = e \/ exists t, x_e s1 = set_centers t e).
      { rewrite A7. destruct ev; auto. right. exists t. destruct E as [->|[t' ->]]; reflexivity. }
      destruct (IH s1 s (step_fresh ev F ES) E1 H) as (B1 & B2 & B3 & B4 & B5 & B6 & B7). rewrite B1, B2, B3, B4, B5, B6, B7, A1, A2, A3, A4, A5, A6, A7. unfold last_of. cbn [fold_left]. split; [reflexivity|].
      destruct ev; repeat split. destruct E as [->|[t' ->]]; reflexivity. }
    intros s H. destruct (G es (start e regs c) s) as (B1 & B2 & B3 & B4 & B5 & B6 & B7); [apply start_fresh| |exact H|].
    - left. assert (U := update_spec (mkX e regs c false false 0 (Q2Qc (11 # 10)) (0, 0, Q2Qc (-1 # 10))%Qc (0, 0, - (1))%Qc ([], []) (repeat ([], []) (length regs)) (repeat [] (length regs)) None)). cbv zeta in U. destruct U as [U _]; [apply repeat_length|]. injection U as U _. exact U.
    - assert (U := update_spec (mkX e regs c false false 0 (Q2Qc (11 # 10)) (0, 0, Q2Qc (-1 # 10))%Qc (0, 0, - (1))%Qc ([], []) (repeat ([], []) (length regs)) (repeat [] (length regs)) None)). cbv zeta in U. destruct U as [U _]; [apply repeat_length|]. injection U as U1 U2 U3 U4 U5 U6 U7 U8 U9 U10.
      fold update in U1, U2, U3, U4, U5, U6, U7, U8, U9, U10. unfold start, xstart in *. fold update in B1, B2, B3, B4, B5, B6, B7. rewrite U1 in B7. rewrite U2 in B1. rewrite U4 in B2. rewrite U5 in B6. rewrite U7 in B3. rewrite U8 in B4. rewrite U9 in B5. cbn [x_e x_regs x_slice x_multi x_scale x_org x_dir] in *. repeat split; assumption.
  Qed.
  (** after every event, the window holds for every region the mesh of its cells at the scale, centres, origin and direction of that moment (sliced if "Slice" is on), and the colours of its cells;
      a region without triangles has none *)
  Theorem c158_shown : forall e regs c es s, run (start e regs c) es = Some s -> forall i r, nth_error (x_regs s) i = Some r ->
    let V := mesh_V (x_e s) (x_scale s) [r] in let F := mesh_F (x_e s) [r] in
    (V <> [] -> F <> [] -> nth_error (x_bufs s) i = Some (if x_slice s then slice_of V F (x_org s) (x_dir s) else (V, F))) /\
    (V = [] \/ F = [] -> nth_error (x_bufs s) i = Some ([], [])) /\
    (x_slice s = false -> nth_error (x_cbufs s) i = Some (Exploder.colors (x_e s) (fun k => nth k (x_cols s) black) [r])) /\
    (x_slice s = true -> nth_error (x_cbufs s) i = Some (slice_cols V F (x_org s) (x_dir s) (Exploder.colors (x_e s) (fun k => nth k (x_cols s) black) [r]))).
  Proof.
    intros e regs c es s H i r N V F. destruct (run_fresh es (start_fresh e regs c) H) as (L & B & C). specialize (B i r N). split; [|split].
    - intros HV HF. assert (M : has_mesh s r = true). { unfold has_mesh. fold V F. destruct V; [congruence|]. destruct F; [congruence|]. reflexivity. } rewrite M in B. exact B.
    - intros E. assert (M : has_mesh s r = false). { unfold has_mesh. fold V F. destruct E as [E|E]; rewrite E; cbn; auto. apply andb_false_r. } rewrite M in B. exact B.
    - rewrite C, nth_error_map, N. cbn [option_map]. unfold cbuf, region_cbuf. split; intros ->; reflexivity.
  Qed.
  (** which regions are visible: all of them, or with "Show Multi" on the one chosen last while it was on (at first region number 0) *)
  Theorem c158_visible : forall e regs c es s, run (start e regs c) es = Some s ->
    let '(multi, chosen) := fold_left (fun mc v => match v with XMulti b => (b, snd mc) | XIndex i => (fst mc, if fst mc : bool then i else snd mc) | _ => mc end) es (false, 0) in
    forall i, visible s i = true <-> (multi = true -> chosen = Z.of_nat i).
  Proof.
    intros e regs c es s H. assert (U : forall t, (x_multi (update t), x_index (update t)) = (x_multi t, x_index t)). { intros t. unfold update, update_exploded. destruct (fold_left _ _ _). reflexivity. }
    assert (G : forall es s0, run s0 es = Some s -> (x_multi s, x_index s) = fold_left (fun mc v => match v with XMulti b => (b, snd mc) | XIndex i => (fst mc, if fst mc : bool then i else snd mc) | _ => mc end) es (x_multi s0, x_index s0)).
    { clear H. induction es0 as [|ev es0 IH]; intros s0 H; unfold run in H; cbn [xrun] in H; [apply Some_inj in H as <-; auto|]. fold step in H. destruct (step s0 ev) as [s1|] eqn:ES; [|discriminate]. rewrite (IH s1 H). cbn [fold_left]. f_equal.
      unfold step in ES. destruct ev; cbn [xstep] in ES; fold update in ES; try (apply Some_inj in ES as <-; try reflexivity; try (rewrite U; reflexivity)).
      - destruct (x_multi s0) eqn:M; cbn; rewrite ?M; auto.
      - destruct (region_colors3 _); [|discriminate]. apply Some_inj in ES as <-. reflexivity.
      - cbn [with_out x_multi x_index]. apply U. }
    specialize (G es _ H). unfold start, xstart in G. fold update in G. rewrite U in G. cbn [x_multi x_index] in G. rewrite <- G. intros i. unfold visible. destruct (x_multi s); [rewrite Z.eqb_eq; split; [intros -> _; auto|intros Q; symmetry; auto]|split; auto; discriminate].
  Qed.
  (** "Save" writes the shown mesh of the region chosen under "Show Multi" *)
  Theorem c158_save : forall e regs c es s s' r, run (start e regs c) es = Some s -> step s XSave = Some s' -> x_multi s = true -> 0 <= x_index s -> nth_error regs (Z.to_nat (x_index s)) = Some r ->
    mesh_V (x_e s) (x_scale s) [r] <> [] -> mesh_F (x_e s) [r] <> [] -> x_out s' = nth_error (x_bufs s) (Z.to_nat (x_index s)) /\ x_out s' <> None.
  Proof.
    intros e regs c es s s' r H HS M I N HV HF. assert (Q := c158_controls _ _ _ _ H). destruct Q as (ER & _). assert (F := run_fresh es (start_fresh e regs c) H). destruct (step_controls _ F HS) as (_ & _ & _ & _ & _ & _ & _ & _ & EO & _).
    assert (HM : has_mesh s r = true). { unfold has_mesh. destruct (mesh_V _ _ _); [congruence|]. destruct (mesh_F _ _); [congruence|]. reflexivity. }
    unfold step in HS. cbn [xstep] in HS. fold update in HS. apply Some_inj in HS as <-. cbn [with_out x_out]. destruct F as (L & B & _). rewrite <- ER in N. rewrite (B _ _ N), HM. split; [|discriminate]. f_equal.
    assert (U := update_spec s L). cbv zeta in U. destruct U as (_ & _ & _ & _ & ->). rewrite M. destruct (Z.leb_spec 0 (x_index s)); [|lia]. cbn [andb]. rewrite N, HM. reflexivity.
  Qed.
  (** Without "Show Multi", or with a region number out of range, "Save" writes the mesh that an earlier save or change left behind, whatever has changed since, and an empty mesh if there was none. *)
  Definition no_pick (s : xst) : Prop := x_multi s = false \/ x_index s < 0 \/ Z.of_nat (length (x_regs s)) <= x_index s.
  Lemma cache_kept s : length (x_bufs s) = length (x_regs s) -> no_pick s -> x_cache (update s) = x_cache s.
  Proof.
    intros L K. assert (U := update_spec s L). cbv zeta in U. destruct U as (_ & _ & _ & _ & ->). destruct K as [->|K]; [reflexivity|]. destruct (Z.leb_spec 0 (x_index s)); [|rewrite andb_false_r; auto]. destruct (x_multi s); auto. cbn [andb].
    assert (N : nth_error (x_regs s) (Z.to_nat (x_index s)) = None) by (apply nth_error_None; lia). rewrite N. auto.
  Qed.
  Lemma cache_view s e sl sc o d : length (x_bufs s) = length (x_regs s) -> no_pick s -> x_cache (update (with_view s e sl sc o d)) = x_cache s.
  Proof. intros L K. exact (@cache_kept (with_view s e sl sc o d) L K). Qed.
  Theorem c158_save_stale_refuted : forall e regs c es s, run (start e regs c) es = Some s -> no_pick s ->
    (forall s', step s XSave = Some s' -> x_out s' = Some (x_cache s)) /\
    (forall ev s', (forall b, ev <> XMulti b) -> (forall i, ev <> XIndex i) -> step s ev = Some s' -> no_pick s' /\ x_cache s' = x_cache s).
  Proof.
    intros e regs c es s H K. assert (F := run_fresh es (start_fresh e regs c) H). assert (L := proj1 F). split.
    - intros s' HS. unfold step in HS. cbn [xstep] in HS. fold update in HS. apply Some_inj in HS as <-. cbn [with_out x_out]. rewrite (cache_kept L K). reflexivity.
    - intros ev s' N1 N2 HS. destruct (step_controls _ F HS) as (E1 & _ & _ & _ & _ & E2 & E3 & _). split.
      + unfold no_pick. rewrite E1, E2, E3. destruct ev; try exact K; [destruct (N1 b)|destruct (N2 i)]; reflexivity.
      + unfold step in HS. destruct ev; cbn [xstep] in HS; fold update in HS; try (apply Some_inj in HS as <-; try reflexivity; try (apply cache_view; assumption); try (exact (cache_kept L K))).
        * destruct (N2 i). reflexivity.
        * destruct (region_colors3 _); [|discriminate]. apply Some_inj in HS as <-. reflexivity.
  Qed.
  Theorem c158_save_empty_refuted : forall e regs c es s s', Forall (fun ev => ev <> XMulti true) es -> run (start e regs c) es = Some s -> step s XSave = Some s' -> x_out s' = Some ([], []).
  Proof.
    intros e regs c es s s' NM H HS. assert (G : forall es s0 s, fresh s0 -> x_multi s0 = false -> x_cache s0 = ([], []) -> Forall (fun ev => ev <> XMulti true) es -> run s0 es = Some s -> fresh s /\ x_multi s = false /\ x_cache s = ([], [])).
    { clear NM H HS s s' es. induction es as [|ev es IH]; intros s0 s F M C NM H; unfold run in H; cbn [xrun] in H; [apply Some_inj in H as <-; auto|]. fold step in H. destruct (step s0 ev) as [s1|] eqn:ES; [|discriminate]. inversion_clear NM as [|? ? N1 N2].
      destruct (step_controls ev F ES) as (_ & _ & _ & _ & _ & M1 & _). assert (F1 := step_fresh ev F ES). apply (IH s1 s F1); auto.
      - rewrite M1. destruct ev; auto. destruct b; congruence.
      - destruct F as (L & _). assert (K : no_pick s0) by (left; auto). unfold step in ES. destruct ev; cbn [xstep] in ES; fold update in ES; try (apply Some_inj in ES as <-; try exact C; try (rewrite cache_view by assumption; exact C); try (exact (eq_trans (cache_kept L K) C))).
        + destruct (x_multi s0); exact C.
        + destruct (region_colors3 _); [|discriminate]. apply Some_inj in ES as <-. exact C. }
    destruct (G es (start e regs c) s) as (F & M & C); auto.
    - apply start_fresh.
    - assert (Q := c158_controls e regs c [] eq_refl). tauto.
    - unfold start, xstart. fold update. rewrite cache_kept; [reflexivity|apply repeat_length|left; reflexivity].
    - unfold step in HS. cbn [xstep] in HS. fold update in HS. apply Some_inj in HS as <-. cbn [with_out x_out]. rewrite cache_kept; [rewrite C; reflexivity|exact (proj1 F)|left; exact M].
  Qed.
End W.

(** ** the regions shown and their colours *)
(** every cell's region has exactly one window mesh *)
Theorem c158_once : forall e i r, nth_error (ex_regions e) i = Some r -> exists k, nth_error (set_of_list Z.compare (ex_regions e)) k = Some r /\ forall k', nth_error (set_of_list Z.compare (ex_regions e)) k' = Some r -> k' = k.
Proof.
  intros e i r H. assert (I : In r (set_of_list Z.compare (ex_regions e))) by (apply (set_of_list_In Zcompare_total); eapply nth_error_In; eauto). apply In_nth_error in I as [k Hk]. exists k. split; auto. intros k' Hk'.
  assert (ND := set_of_list_NoDup Zcompare_total (ex_regions e)). rewrite NoDup_nth_error in ND. apply ND; [apply nth_error_Some; congruence|congruence].
Qed.
(** without slicing every vertex shown has the colour of its cell *)
Theorem c158_vertex_colors : forall e s cols r, ex_ok e ->
  combine (mesh_V e s [r]) (Exploder.colors e (fun k => nth k cols black) [r]) = per_cell e [r] (fun i V _ c => map (fun v => (moved s c v, Some (nth i cols black))) V) /\
  length (mesh_V e s [r]) = length (Exploder.colors e (fun k => nth k cols black) [r]).
Proof.
  intros e s cols r OK. rewrite c48_vertices, c48_colors by auto. unfold per_cell. induction (seq 0 (length (ex_Vs e))) as [|i l [IH1 IH2]]; [split; reflexivity|]. cbn [flat_map]. rewrite !app_length.
  assert (CA : forall (A B : Type) (a a' : list A) (b b' : list B), length a = length b -> combine (a ++ a') (b ++ b') = combine a b ++ combine a' b'). { clear. induction a as [|x a IH]; intros a' [|y b] b' H; cbn in *; auto; try lia. f_equal. apply IH. lia. }
  destruct (nth_error (ex_Vs e) i) as [V|]; [|split; [exact IH1|exact (f_equal (Nat.add 0) IH2)]]. destruct (nth_error (ex_Fs e) i); [|split; [exact IH1|exact (f_equal (Nat.add 0) IH2)]]. destruct (nth_error (ex_regions e) i); [|split; [exact IH1|exact (f_equal (Nat.add 0) IH2)]]. destruct (nth_error (ex_Cs e) i) as [c|]; [|split; [exact IH1|exact (f_equal (Nat.add 0) IH2)]].
  destruct (in_dec Z.eq_dec z [r]); [|split; [exact IH1|exact (f_equal (Nat.add 0) IH2)]]. split; [|rewrite !map_length; lia]. rewrite CA by (rewrite !map_length; auto). rewrite IH1. f_equal. induction V as [|v V IH]; cbn; auto. f_equal. auto.
Qed.
Lemma fold_maxz_ge (l : list Z) : forall a, a <= fold_left Z.max l a /\ forall x, In x l -> x <= fold_left Z.max l a.
Proof. induction l as [|y l IH]; intros a; cbn [fold_left]; [split; [lia|intros x []]|]. destruct (IH (Z.max a y)) as [A B]. split; [lia|]. intros x [<-|I]; [lia|auto]. Qed.
Lemma fold_maxz_in (l : list Z) : forall a, fold_left Z.max l a = a \/ In (fold_left Z.max l a) l.
Proof. induction l as [|y l IH]; intros a; cbn [fold_left]; auto. destruct (IH (Z.max a y)) as [E|E]; [|right; right; auto]. rewrite E. destruct (Z.max_spec a y) as [[_ ->]|[_ ->]]; [right; left|left]; auto. Qed.
Lemma ratio_inj me a b : 0 < me -> (Z2Qc a / Z2Qc me)%Qc = (Z2Qc b / Z2Qc me)%Qc -> a = b.
Proof.
  intros P E. assert (N : Z2Qc me <> 0%Qc). { intros K. apply (Z2Qc_inj me 0) in K. lia. } apply Z2Qc_inj. apply (f_equal (fun q => (q * Z2Qc me)%Qc)) in E. replace (Z2Qc a / Z2Qc me * Z2Qc me)%Qc with (Z2Qc a) in E by (field; auto). replace (Z2Qc b / Z2Qc me * Z2Qc me)%Qc with (Z2Qc b) in E by (field; auto). exact E.
Qed.
Lemma ratio_unit me a : 0 < me -> 0 <= a <= me -> (0 <= Z2Qc a / Z2Qc me <= 1)%Qc.
Proof.
  intros P [A B]. assert (PM : (0 < Z2Qc me)%Qc) by (change 0%Qc with (Z2Qc 0); apply Z2Qc_lt; auto). assert (N : Z2Qc me <> 0%Qc) by (intros K; rewrite K in PM; discriminate).
  assert (H0 : (Z2Qc 0 <= Z2Qc a)%Qc) by (apply Z2Qc_le; auto). assert (H1 : (Z2Qc a <= Z2Qc me)%Qc) by (apply Z2Qc_le; auto). change (Z2Qc 0) with 0%Qc in H0.
  split; apply Qcnot_lt_le; intros L; apply (Qcmult_lt_compat_r _ _ _ PM) in L; replace (Z2Qc a / Z2Qc me * Z2Qc me)%Qc with (Z2Qc a) in L by (field; auto).
  - rewrite Qcmult_0_l in L. exact (Qclt_not_le _ _ L H0).
  - rewrite Qcmult_1_l in L. exact (Qclt_not_le _ _ L H1).
Qed.
Definition in_unit (c : comp) : Prop := exists q, c = Some q /\ (0 <= q <= 1)%Qc.
(** "Region colors": when the regions are numbered from 0 and there is one beyond 0, two cells have the same colour exactly if they are in the same region, region 0 is black, and no component is outside [0, 1] *)
Theorem c158_region_colors : forall sl sc s s', xstep sl sc s XRegion = Some s' -> (forall r, In r (ex_regions (x_e s)) -> 0 <= r) -> (exists r, In r (ex_regions (x_e s)) /\ 0 < r) ->
  length (x_cols s') = length (ex_regions (x_e s)) /\
  (forall i ri, nth_error (ex_regions (x_e s)) i = Some ri -> exists a b c, nth_error (x_cols s') i = Some (a, b, c) /\ in_unit a /\ in_unit b /\ in_unit c /\ (ri = 0 -> (a, b, c) = black)) /\
  (forall i j ri rj, nth_error (ex_regions (x_e s)) i = Some ri -> nth_error (ex_regions (x_e s)) j = Some rj -> (nth_error (x_cols s') i = nth_error (x_cols s') j <-> ri = rj)).
Proof.
  intros sl sc s s' H NN (r1 & I1 & P1). cbn [xstep] in H. destruct (ex_regions (x_e s)) as [|r t] eqn:ER; [destruct I1|]. unfold region_colors3 in H. cbn [option_map] in H. apply Some_inj in H as <-. cbn [set_region_colors with_cols x_cols]. set (me := fold_left Z.max t r).
  assert (GE : forall x, In x (r :: t) -> 0 <= x <= me). { intros x I. split; auto. destruct (fold_maxz_ge t r) as [A B]. destruct I as [<-|I]; auto. } assert (PM : 0 < me) by (specialize (GE _ I1); lia).
  assert (Q : forall x, In x (r :: t) -> quot_nan x me = Some (Z2Qc x / Z2Qc me)%Qc /\ (0 <= Z2Qc x / Z2Qc me <= 1)%Qc). { intros x I. split; [unfold quot_nan; destruct (Z.eqb_spec me 0); [lia|auto]|apply ratio_unit; auto]. }
  assert (Z0 : in_unit (Some 0%Qc)) by (exists 0%Qc; split; [auto|split; discriminate]).
  assert (RM : forall x, In x (r :: t) -> 0 <= Z.rem x 7 < 7) by (intros x I; apply Z.rem_bound_pos; [apply GE; auto|lia]).
  split; [apply map_length|]. split.
  - intros i ri N. rewrite nth_error_map, N. cbn [option_map]. assert (I := nth_error_In _ _ N). destruct (Q ri I) as [E U]. assert (UU : in_unit (Some (Z2Qc ri / Z2Qc me)%Qc)) by (exists (Z2Qc ri / Z2Qc me)%Qc; auto). unfold region_color. rewrite E. specialize (RM _ I).
    assert (B0 : ri = 0 -> Some (Z2Qc ri / Z2Qc me)%Qc = Some 0%Qc). { intros ->. f_equal. change (Z2Qc 0) with 0%Qc. unfold Qcdiv. ring. }
    assert (C : Z.rem ri 7 = 0 \/ Z.rem ri 7 = 1 \/ Z.rem ri 7 = 2 \/ Z.rem ri 7 = 3 \/ Z.rem ri 7 = 4 \/ Z.rem ri 7 = 5 \/ Z.rem ri 7 = 6) by lia.
    destruct C as [C|[C|[C|[C|[C|[C|C]]]]]]; rewrite C; do 3 eexists; (split; [reflexivity|]); (split; [assumption|]); (split; [assumption|]); (split; [assumption|]); intros K; rewrite (B0 K); reflexivity.
  - intros i j ri rj Ni Nj. rewrite !nth_error_map, Ni, Nj. cbn [option_map]. split; [|intros ->; auto]. intros K. apply Some_inj in K. assert (Ii := nth_error_In _ _ Ni). assert (Ij := nth_error_In _ _ Nj). destruct (Q ri Ii) as [Ei _], (Q rj Ij) as [Ej _]. unfold region_color in K. rewrite Ei, Ej in K. assert (Ri := RM _ Ii). assert (Rj := RM _ Ij).
    assert (Z7 : forall x, (Z2Qc x / Z2Qc me)%Qc = 0%Qc -> x = 0). { intros x Hx. apply (@ratio_inj me x 0 PM). rewrite Hx. change (Z2Qc 0) with 0%Qc. unfold Qcdiv. ring. }
    revert K. generalize (Z7 ri) (Z7 rj) (@ratio_inj me ri rj PM). generalize (Z2Qc ri / Z2Qc me)%Qc (Z2Qc rj / Z2Qc me)%Qc. intros q q' A A' J K.
    assert (Ci : Z.rem ri 7 = 0 \/ Z.rem ri 7 = 1 \/ Z.rem ri 7 = 2 \/ Z.rem ri 7 = 3 \/ Z.rem ri 7 = 4 \/ Z.rem ri 7 = 5 \/ Z.rem ri 7 = 6) by lia. assert (Cj : Z.rem rj 7 = 0 \/ Z.rem rj 7 = 1 \/ Z.rem rj 7 = 2 \/ Z.rem rj 7 = 3 \/ Z.rem rj 7 = 4 \/ Z.rem rj 7 = 5 \/ Z.rem rj 7 = 6) by lia.
    assert (F1 : forall a b c a' b' c' : comp, (a, b, c) = (a', b', c') -> a = a' /\ b = b' /\ c = c') by (intros * X; inversion X; auto).
    assert (Z77 : forall x, x = 0 -> Z.rem x 7 = 0) by (intros x ->; reflexivity).
    destruct Ci as [C|[C|[C|[C|[C|[C|C]]]]]], Cj as [C'|[C'|[C'|[C'|[C'|[C'|C']]]]]]; rewrite C, C' in K; apply F1 in K; destruct K as (K1 & K2 & K3); try (apply J; (apply (@Some_inj Qc); assumption));
      repeat match goal with X : Some _ = Some _ |- _ => apply (@Some_inj Qc) in X end; subst;
      try (specialize (A eq_refl); rewrite A in C; discriminate); try (specialize (A' eq_refl); rewrite A' in C'; discriminate);
      try (specialize (A eq_refl)); try (specialize (A' eq_refl)); try lia.
Qed.
(** when every cell is in region 0 the red of every cell is not a number *)
Theorem c158_region_nan_refuted : forall sl sc s s', xstep sl sc s XRegion = Some s' -> (forall r, In r (ex_regions (x_e s)) -> r = 0) ->
  forall i r, nth_error (ex_regions (x_e s)) i = Some r -> nth_error (x_cols s') i = Some (None, Some 0, Some 0)%Qc.
Proof.
  intros sl sc s s' H NN i ri N. cbn [xstep] in H. destruct (ex_regions (x_e s)) as [|r t] eqn:ER; [destruct i; discriminate|]. unfold region_colors3 in H. cbn [option_map] in H. apply Some_inj in H as <-. cbn [set_region_colors with_cols x_cols].
  assert (M : fold_left Z.max t r = 0). { destruct (fold_maxz_in t r) as [E|E]; [rewrite E; apply NN; left; auto|apply NN; right; auto]. } rewrite M, nth_error_map, N. cbn [option_map]. rewrite (NN ri (nth_error_In _ _ N)). reflexivity.
Qed.
(** which of red, green and blue are used tells the region modulo 7 (region 0 is black) *)
Theorem c158_region_hues : forall sl sc s s', xstep sl sc s XRegion = Some s' -> (forall r, In r (ex_regions (x_e s)) -> 0 <= r) ->
  forall i j ri rj a b c a' b' c', nth_error (ex_regions (x_e s)) i = Some ri -> nth_error (ex_regions (x_e s)) j = Some rj -> 0 < ri -> 0 < rj ->
  nth_error (x_cols s') i = Some (a, b, c) -> nth_error (x_cols s') j = Some (a', b', c') ->
  (((a = Some 0%Qc <-> a' = Some 0%Qc) /\ (b = Some 0%Qc <-> b' = Some 0%Qc) /\ (c = Some 0%Qc <-> c' = Some 0%Qc)) <-> ri mod 7 = rj mod 7).
Proof.
  intros sl sc s s' H NN i j ri rj a b c a' b' c' Ni Nj Pi Pj Ci Cj. cbn [xstep] in H. destruct (ex_regions (x_e s)) as [|r t] eqn:ER; [destruct i; discriminate|]. unfold region_colors3 in H. cbn [option_map] in H. apply Some_inj in H as <-. cbn [set_region_colors with_cols x_cols] in Ci, Cj. set (me := fold_left Z.max t r) in *.
  assert (GE : forall x, In x (r :: t) -> 0 <= x <= me). { intros x I. split; auto. destruct (fold_maxz_ge t r) as [A B]. destruct I as [<-|I]; auto. }
  assert (PM : 0 < me) by (specialize (GE _ (nth_error_In _ _ Ni)); lia).
  assert (Q : forall x, 0 < x -> exists q, quot_nan x me = Some q /\ q <> 0%Qc).
  { intros x Px. unfold quot_nan. destruct (Z.eqb_spec me 0); [lia|]. eexists. split; [reflexivity|]. intros E. assert (x = 0); [|lia]. apply (@ratio_inj me x 0 PM). rewrite E. change (Z2Qc 0) with 0%Qc. unfold Qcdiv. ring. }
  rewrite nth_error_map, Ni in Ci. rewrite nth_error_map, Nj in Cj. cbn [option_map] in Ci, Cj. apply Some_inj in Ci, Cj. unfold region_color in Ci, Cj. destruct (Q ri Pi) as (q & Eq & Nq), (Q rj Pj) as (q' & Eq' & Nq'). rewrite Eq in Ci. rewrite Eq' in Cj.
  assert (Sq : Some q <> Some 0%Qc) by (intros E; apply Some_inj in E; auto). assert (Sq' : Some q' <> Some 0%Qc) by (intros E; apply Some_inj in E; auto).
  rewrite Z.rem_mod_nonneg in Ci, Cj by lia. assert (Ri := Z.mod_pos_bound ri 7 ltac:(lia)). assert (Rj := Z.mod_pos_bound rj 7 ltac:(lia)).
  assert (Xi : ri mod 7 = 0 \/ ri mod 7 = 1 \/ ri mod 7 = 2 \/ ri mod 7 = 3 \/ ri mod 7 = 4 \/ ri mod 7 = 5 \/ ri mod 7 = 6) by lia. assert (Xj : rj mod 7 = 0 \/ rj mod 7 = 1 \/ rj mod 7 = 2 \/ rj mod 7 = 3 \/ rj mod 7 = 4 \/ rj mod 7 = 5 \/ rj mod 7 = 6) by lia.
  destruct Xi as [X|[X|[X|[X|[X|[X|X]]]]]], Xj as [X'|[X'|[X'|[X'|[X'|[X'|X']]]]]]; rewrite X in Ci |- *; rewrite X' in Cj |- *; apply pair_equal_spec in Ci as [Ci <-]; apply pair_equal_spec in Ci as [<- <-]; apply pair_equal_spec in Cj as [Cj <-]; apply pair_equal_spec in Cj as [<- <-]; split; try (intros; discriminate); intros; try reflexivity; tauto.
Qed.
(** ** examples *)
Definition xe : exploder := mkEx [[(0, 0, 0); (1, 0, 0); (0, 1, 0)]; [(1, 0, 0)]; [(0, 0, 1); (1, 0, 1); (0, 1, 1)]]%Qc [[(0, 1, 2)]; []; [(2, 1, 0); (0, 2, 1)]] [0; 1; 3] (repeat (0, 0, 0)%Qc 3) (repeat (1, 0, 0)%Qc 3) (repeat (1, 0, 0)%Qc 3) (0, 0, 0)%Qc.
Definition x_sl (V : list q3) (F : list c3) (o d : q3) : tri := (V ++ V, F).
Definition x_sc (V : list q3) (F : list c3) (o d : q3) (C : list (option rgb)) : list (option rgb) := C ++ C.
Definition xsession (es : list xevent) : option xst := xrun x_sl x_sc (xstart x_sl x_sc xe (set_of_list Z.compare (ex_regions xe)) (repeat black 3)) es.
(** three windows (the second without triangles); a save without a chosen region writes an empty mesh, one with region number 2 chosen the third mesh, and a later one, with the choice off and the scale changed, that mesh again *)
Example c158_example : option_map (fun s => (map (fun b => (length (fst b), snd b)) (x_bufs s), map (@length _) (x_cbufs s))) (xsession [XSlice true; XScale 1%Qc]) = Some ([(6%nat, [(0, 1, 2)]); (0%nat, []); (6%nat, [(2, 1, 0); (0, 2, 1)])], [6; 2; 6]%nat) /\
  option_map x_out (xsession [XScale 1%Qc; XSave]) = Some (Some ([], [])) /\ option_map x_out (xsession [XScale 1%Qc; XMulti true; XIndex 2; XSave]) = Some (Some (nth 2 (ex_Vs xe) [], [(2, 1, 0); (0, 2, 1)])) /\
  option_map x_out (xsession [XScale 1%Qc; XMulti true; XIndex 2; XSave; XMulti false; XScale (1 + 1)%Qc; XCenters 1%Qc; XSave]) = Some (Some (nth 2 (ex_Vs xe) [], [(2, 1, 0); (0, 2, 1)])) /\
  option_map (fun s => map (fun c : rgb => let '(r, g, b) := c in (option_map this r, option_map this g, option_map this b)) (x_cols s)) (xsession [XRegion]) = Some [(Some 0, Some 0, Some 0); (Some 0, Some (1 # 3), Some 0); (Some 1, Some 1, Some 0)]%Q /\
  ex_ok xe /\ option_map (fun s => map (visible s) [0; 1; 2]%nat) (xsession [XMulti true; XIndex 1]) = Some [false; true; false].
Proof.
  split; [vm_compute; reflexivity|]. split; [vm_compute; reflexivity|]. split; [|split; [|split; [vm_compute; reflexivity|split; [|vm_compute; reflexivity]]]].
  - vm_compute. repeat f_equal; apply Qc_is_canon; reflexivity.
  - vm_compute. repeat f_equal; apply Qc_is_canon; reflexivity.
  - constructor; auto. intros i V F r c a b d (H1 & H2 & _) H. destruct i as [|[|[|i]]]; cbn in H1, H2; try (destruct i; discriminate); inversion H1; inversion H2; subst; cbn in *; repeat (destruct H as [[= <- <- <-]|H]; [lia|]); destruct H.
Qed.
(** the arrays of the exploder stay one entry per cell when the centres are set *)
Theorem c158_centers_ok : forall t e, ex_ok e -> length (ex_RCs e) = length (ex_Vs e) -> length (ex_GCs e) = length (ex_Vs e) -> ex_ok (set_centers t e) /\ length (ex_RCs (set_centers t e)) = length (ex_Vs (set_centers t e)) /\ length (ex_GCs (set_centers t e)) = length (ex_Vs (set_centers t e)).
Proof.
  intros t e OK LR LG. split; [|split; assumption]. constructor.
  - apply (eo_F e OK).
  - apply (eo_r e OK).
  - cbn [set_centers ex_Cs ex_Vs]. rewrite map_length, combine_length. lia.
  - intros i V F r c a b d (H1 & H2 & H3 & H4) I. cbn [set_centers ex_Vs ex_Fs ex_regions] in *. assert (LI : (i < length (ex_Vs e))%nat) by (apply nth_error_Some; congruence). destruct (nth_error (ex_Cs e) i) as [c0|] eqn:E0.
    + apply (eo_in e OK i V F r c0 a b d); [|exact I]. repeat split; assumption.
    + apply nth_error_None in E0. rewrite (eo_C e OK) in E0. lia.
Qed.
