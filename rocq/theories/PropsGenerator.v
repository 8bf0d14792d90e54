(** C116-C118: edges added to a generator, vertex accessors, vertices and edges of the generated mesh. *)
From Coq Require Import Permutation Sorted.
From Verif Require Import Base Num CoordMask Vertex VertexSpec VertexProofs VertexTypes Grid Crossings CrossingsSpec CrossingsProofs EdgeBake CutEdges GridEdges Sparse
  PropsConstruct ThresholdProofs EdgeBakeProofs PropsEdgeBake PropsCutEdges TriBake PropsTri BaryMap PropsBary Generator.
Set Implicit Arguments.
Local Open Scope Z_scope.
Local Arguments Qcplus : simpl never. Local Arguments Qcmult : simpl never. Local Arguments Qcopp : simpl never. Local Arguments Qcminus : simpl never.
Local Arguments Qcdiv : simpl never. Local Arguments Qcinv : simpl never. Local Arguments Q2Qc : simpl never.

(** ** Lists of writes *)
Lemma cs_len (A : Type) (l : list (option A)) a : forall i, length (col_set l i a) = length l.
Proof. induction l as [|x l IH]; intros [|i]; cbn; auto. Qed.
Lemma cs_nth (A : Type) (l : list (option A)) a : forall i j, nth_error (col_set l i a) j = if (j =? i)%nat then (if (i <? length l)%nat then Some (Some a) else None) else nth_error l j.
Proof.
  induction l as [|x l IH]; intros [|i] [|j]; cbn [col_set nth_error]; auto.
  - destruct (Nat.eqb_spec (S j) (S i)); auto.
  - rewrite IH. cbn. reflexivity.
Qed.
Lemma writes_spec (A : Type) (ws : list (A * nat)) : forall l k, let R := fold_left (fun l w => col_set l (snd w) (fst w)) ws l in
  length R = length l /\ ((forall a, ~ In (a, k) ws) -> nth_error R k = nth_error l k) /\
  ((exists a, In (a, k) ws) -> (k < length l)%nat -> exists a, In (a, k) ws /\ nth_error R k = Some (Some a)).
Proof.
  induction ws as [|[a i] ws IH]; intros l k; cbn zeta; cbn [fold_left fst snd].
  - split; auto. split; auto. intros (a & []).
  - destruct (IH (col_set l i a) k) as (I1 & I2 & I3). rewrite cs_len in I1, I3. split; auto.
    assert (DEC : (exists a, In (a, k) ws) \/ (forall a, ~ In (a, k) ws)).
    { clear. induction ws as [|[b j] ws IH]; [right; intros a []|]. destruct (Nat.eq_dec j k) as [->|N]; [left; exists b; cbn; auto|].
      destruct IH as [[x H]|H]; [left; exists x; cbn; auto|right]. intros x [E|E]; [apply pair_equal_spec in E as [_ E]; lia|apply (H x E)]. }
    split.
    + intros H. rewrite I2 by (intros b Hb; apply (H b); cbn; auto). rewrite cs_nth. destruct (Nat.eqb_spec k i) as [->|]; auto. destruct (H a). cbn; auto.
    + intros (b & Hb) L. destruct DEC as [D|D].
      * destruct (I3 D L) as (x & X1 & X2). exists x. split; cbn; auto.
      * destruct Hb as [E|Hb]; [|destruct (D b Hb)]. apply pair_equal_spec in E as [-> ->]. exists b. split; [cbn; auto|]. rewrite I2 by auto. rewrite cs_nth, Nat.eqb_refl.
        destruct (Nat.ltb_spec k (length l)); [auto|lia].
Qed.

(** ** C116 *)
Notation skeys m := (ssorted pair_cmp2 (keys m)).
Lemma map_set_len (K V : Type) (cmp : K -> K -> comparison) k (v : V) m : length (map_set cmp k v m) = match map_find cmp k m with Some _ => length m | None => S (length m) end.
Proof. induction m as [|[q w] m IH]; cbn; auto. destruct (cmp k q); cbn; auto. rewrite IH. destruct (map_find cmp k m); auto. Qed.
Lemma has_key_In m e : skeys m -> (has_key m e = true <-> exists i, In (e, i) m).
Proof.
  intros S. unfold has_key. destruct (map_find pair_cmp2 e m) as [i|] eqn:E.
  - split; auto. intros _. exists i. apply (map_find_Some pair_cmp2_total); auto.
  - split; [discriminate|]. intros (i & H). apply (map_find_Some pair_cmp2_total) in H; auto. congruence.
Qed.
Lemma step_sorted orig new e : skeys new -> skeys (add_step orig new e).
Proof. intros S. unfold add_step. destruct (has_e orig new e); auto. apply (map_set_sorted pair_cmp2_total). auto. Qed.
Lemma new_map_snoc orig E e : new_map orig (E ++ [e]) = add_step orig (new_map orig E) e.
Proof. unfold new_map. rewrite fold_left_app. reflexivity. Qed.
Lemma new_map_sorted orig E : skeys (new_map orig E).
Proof. induction E as [|e E IH] using rev_ind; [constructor|]. rewrite new_map_snoc. apply step_sorted. auto. Qed.
(** a column that no entry will ever fill *)
Definition gap (orig new : emap_t) : Prop := exists k, 0 <= k < esize orig new /\ forall e, ~ In (e, k) new.
Lemma gap_step orig new e : skeys new -> gap orig new -> gap orig (add_step orig new e).
Proof.
  intros S (k & Hk & H). unfold add_step. destruct (has_e orig new e); [exists k; auto|]. exists k. split.
  - unfold esize in *. rewrite map_set_len. destruct (map_find pair_cmp2 e new); lia.
  - intros e' I. apply (map_find_Some pair_cmp2_total) in I; [|apply (map_set_sorted pair_cmp2_total); auto]. rewrite (map_find_set pair_cmp2_total) in I by auto.
    assert (X : map_find pair_cmp2 e' new = Some k -> False) by (intros F; apply (map_find_Some pair_cmp2_total) in F; auto; apply (H e' F)).
    destruct (pair_cmp2 e' e); auto. assert (esize orig new = k) by congruence. lia.
Qed.
Lemma gap_steps orig E : forall new, skeys new -> gap orig new -> gap orig (fold_left (add_step orig) E new).
Proof. induction E as [|e E IH]; intros new S G; cbn [fold_left]; auto. apply IH; [apply step_sorted; auto|apply gap_step; auto]. Qed.
Lemma has_e_nil new e : has_e [] new e = false.
Proof. reflexivity. Qed.
(** the numbering of a list without repetitions *)
Lemma new_map_nodup E : NoDup E -> Z.of_nat (length (new_map [] E)) = Z.of_nat (length E) /\
  forall e i, map_find pair_cmp2 e (new_map [] E) = Some i <-> 0 <= i /\ nth_error E (Z.to_nat i) = Some e.
Proof.
  induction E as [|x E IH] using rev_ind; intros ND.
  - cbn. split; auto. intros e i. split; [discriminate|]. intros (_ & H). destruct (Z.to_nat i); discriminate.
  - assert (ND' : NoDup E /\ ~ In x E).
    { apply NoDup_remove in ND. rewrite app_nil_r in ND. tauto. }
    destruct ND' as [ND1 NI]. destruct (IH ND1) as (L & F). rewrite new_map_snoc. unfold add_step. rewrite has_e_nil. unfold esize. cbn [length].
    assert (S := new_map_sorted [] E).
    assert (FN : map_find pair_cmp2 x (new_map [] E) = None).
    { destruct (map_find pair_cmp2 x (new_map [] E)) eqn:Q; auto. apply F in Q as (_ & Q). apply nth_error_In in Q. tauto. }
    rewrite map_set_len, FN, app_length. cbn [length]. split; [lia|]. intros e i. rewrite (map_find_set pair_cmp2_total) by auto.
    assert (LE : 0 <= i -> nth_error (E ++ [x]) (Z.to_nat i) = Some e <-> nth_error E (Z.to_nat i) = Some e \/ (i = Z.of_nat (length E) /\ e = x)).
    { intros Hi. destruct (Z.lt_ge_cases i (Z.of_nat (length E))) as [H|H].
      - rewrite nth_error_app1 by lia. split; auto. intros [A|[A _]]; auto. lia.
      - rewrite nth_error_app2 by lia. split.
        + intros A. right. destruct (Z.to_nat i - length E)%nat as [|n] eqn:Q; [|destruct n; discriminate]. cbn in A. split; [lia|congruence].
        + intros [A|[A ->]]; [apply nth_error_In in A as A'; assert (Z.to_nat i < length E)%nat by (apply nth_error_Some; congruence); lia|].
          subst i. rewrite Nat2Z.id, Nat.sub_diag. reflexivity. }
    destruct (pair_cmp2 e x) eqn:C.
    + apply (tc_eq pair_cmp2_total) in C. subst e. split.
      * intros Q. assert (i = Z.of_nat (length E)) by (injection Q; lia). split; [lia|]. apply LE; auto. lia.
      * intros (Hi & Q). apply LE in Q; auto. destruct Q as [Q|[-> _]]; [apply nth_error_In in Q; tauto|]. f_equal. lia.
    + rewrite F. split; intros (Hi & Q); (split; auto); [apply LE; auto|]. apply LE in Q; auto. destruct Q as [Q|[_ ->]]; auto. rewrite (tc_refl pair_cmp2_total) in C. discriminate.
    + rewrite F. split; intros (Hi & Q); (split; auto); [apply LE; auto|]. apply LE in Q; auto. destruct Q as [Q|[_ ->]]; auto. rewrite (tc_refl pair_cmp2_total) in C. discriminate.
Qed.
Lemma dup_split (E : list (Z * Z)) : ~ NoDup E -> exists P e T, E = P ++ e :: T /\ NoDup P /\ In e P.
Proof.
  induction E as [|x E IH] using rev_ind; intros N; [destruct N; constructor|].
  destruct (ListDec.NoDup_dec (fun a b : Z * Z => ltac:(decide equality; apply Z.eq_dec)) E) as [D|D].
  - exists E, x, []. split; auto. split; auto. destruct (in_dec (fun a b : Z * Z => ltac:(decide equality; apply Z.eq_dec)) x E) as [I|I]; auto. destruct N.
    apply (Permutation_NoDup (l := x :: E)); [apply Permutation_cons_append|constructor; auto].
  - destruct (IH D) as (P & e & T & -> & H1 & H2). exists P, e, (T ++ [x]). rewrite <- app_assoc. auto.
Qed.
Lemma gap_dup E : ~ NoDup E -> gap [] (new_map [] E).
Proof.
  intros N. destruct (dup_split N) as (P & e & T & -> & ND & I). unfold new_map. rewrite fold_left_app. cbn [fold_left]. apply gap_steps; [apply step_sorted, new_map_sorted|].
  fold (new_map [] P). destruct (new_map_nodup ND) as (L & F). apply In_nth_error in I as (k & Hk). assert (Lk : (k < length P)%nat) by (apply nth_error_Some; congruence).
  assert (FK : map_find pair_cmp2 e (new_map [] P) = Some (Z.of_nat k)) by (apply F; rewrite Nat2Z.id; split; auto; lia).
  unfold add_step. rewrite has_e_nil. exists (Z.of_nat k). unfold esize. rewrite map_set_len, FK. cbn [length]. split; [lia|]. intros e' Q.
  apply (map_find_Some pair_cmp2_total) in Q; [|apply (map_set_sorted pair_cmp2_total), new_map_sorted]. rewrite (map_find_set pair_cmp2_total) in Q by apply new_map_sorted.
  assert (NE : map_find pair_cmp2 e' (new_map [] P) = Some (Z.of_nat k) -> e' = e) by (intros Q'; apply F in Q' as (_ & Q'); rewrite Nat2Z.id in Q'; congruence).
  destruct (pair_cmp2 e' e) eqn:C; [injection Q; lia| |]; rewrite (NE Q), (tc_refl pair_cmp2_total) in C; discriminate.
Qed.
(** filling the columns *)
Lemma fill_spec new n cols : fill new n = Some cols -> length cols = Z.to_nat n /\ Forall (fun p => 0 <= snd p < n) new /\
  forall k, (k < Z.to_nat n)%nat -> ((forall e, ~ In (e, Z.of_nat k) new) /\ nth_error cols k = Some None) \/ (exists e, In (e, Z.of_nat k) new /\ nth_error cols k = Some (Some e)).
Proof.
  unfold fill. assert (G : forall l0 r, length l0 = Z.to_nat n ->
    fold_left (fun acc '(e, i) => match acc with Some l => if (0 <=? i) && (i <? n) then Some (col_set l (Z.to_nat i) e) else None | None => None end) new (Some l0) = Some r ->
    Forall (fun p : Z * Z * Z => 0 <= snd p < n) new /\ r = fold_left (fun l w => col_set l (snd w) (fst w)) (map (fun p : Z * Z * Z => (fst p, Z.to_nat (snd p))) new) l0).
  { induction new as [|[e i] new IH]; intros l0 r L E; cbn [fold_left map] in *; [split; [constructor|congruence]|].
    destruct (Z.leb_spec 0 i), (Z.ltb_spec i n); cbn [andb] in E.
    2-4: exfalso; revert E; clear; induction new as [|[e' i'] new IH]; cbn; auto; discriminate.
    apply IH in E as [E1 E2]; [|rewrite cs_len; auto]. split; [constructor; cbn; auto; lia|exact E2]. }
  intros E. apply G in E as [E1 ->]; [|apply repeat_length]. set (ws := map _ new).
  split; [destruct (writes_spec ws (repeat None (Z.to_nat n)) 0) as (W & _); rewrite W; apply repeat_length|]. split; auto.
  intros k Hk. destruct (writes_spec ws (repeat None (Z.to_nat n)) k) as (W1 & W2 & W3). rewrite Forall_forall in E1.
  assert (IW : forall e, In (e, k) ws <-> In (e, Z.of_nat k) new).
  { intros e. unfold ws. rewrite in_map_iff. split.
    - intros ([e' i] & Q & I). cbn in Q. apply pair_equal_spec in Q as [-> Q]. assert (X := E1 _ I). cbn in X. replace (Z.of_nat k) with i by lia. auto.
    - intros I. exists (e, Z.of_nat k). cbn. rewrite Nat2Z.id. auto. }
  assert (DEC : (exists e, In (e, k) ws) \/ (forall e, ~ In (e, k) ws)).
  { clear. induction ws as [|[b j] ws IH]; [right; intros a []|]. destruct (Nat.eq_dec j k) as [->|N]; [left; exists b; cbn; auto|].
    destruct IH as [[x H]|H]; [left; exists x; cbn; auto|right]. intros x [E|E]; [apply pair_equal_spec in E as [_ E]; lia|apply (H x E)]. }
  destruct DEC as [D|D].
  - right. destruct (W3 D) as (e & I & Q); [rewrite repeat_length; auto|]. exists e. split; [apply IW; auto|auto].
  - left. split; [intros e I; apply (D e), IW; auto|]. rewrite W2 by auto. rewrite nth_error_repeat. destruct (Nat.ltb_spec k (Z.to_nat n)); [auto|lia].
Qed.
Lemma fill_some new n : Forall (fun p => 0 <= snd p < n) new -> exists cols, fill new n = Some cols.
Proof.
  intros H. unfold fill. generalize (repeat (@None (Z * Z)) (Z.to_nat n)). induction new as [|[e i] new IH]; intros l; cbn [fold_left]; eauto.
  inversion H as [|? ? H1 H2]; subst. cbn in H1. destruct (Z.leb_spec 0 i), (Z.ltb_spec i n); try lia. cbn [andb]. apply IH. auto.
Qed.
(** what a caller can see: the edges of the generator, all of them defined *)
Definition holds (E : list (Z * Z)) (o : option gen2) : Prop := exists g, o = Some g /\ g2_E g = map Some E.
Definition undefined (o : option gen2) : Prop := match o with None => True | Some g => In None (g2_E g) end.
Lemma add_fresh nv E g : nv <> 0 -> g2_orig g = [] -> NoDup E -> holds E (add_edges nv E g).
Proof.
  intros NV O ND. unfold add_edges. rewrite O. destruct (new_map_nodup ND) as (L & F). set (new := new_map [] E) in *. assert (S : skeys new) by apply new_map_sorted.
  assert (IN : forall e i, In (e, i) new <-> 0 <= i /\ nth_error E (Z.to_nat i) = Some e) by (intros e i; rewrite <- F; symmetry; apply (map_find_Some pair_cmp2_total); auto).
  destruct (@fill_some new (esize [] new)) as (cols & HC).
  { rewrite Forall_forall. intros [e i] I. apply IN in I as (I1 & I2). assert (Z.to_nat i < length E)%nat by (apply nth_error_Some; congruence). unfold esize. cbn [length snd]. lia. }
  rewrite HC. eexists. split; [reflexivity|]. cbn [g2_E]. destruct (Z.eqb_spec nv 0); [tauto|]. destruct (@fill_spec _ _ _ HC) as (C1 & _ & C3).
  assert (ES : Z.to_nat (esize [] new) = length E) by (unfold esize; cbn [length]; lia). rewrite ES in C1, C3. apply nth_error_ext. intros k.
  destruct (Nat.lt_ge_cases k (length E)) as [H|H].
  - rewrite nth_error_map. destruct (nth_error_lt _ E k H) as [e He]. rewrite He. cbn [option_map]. destruct (C3 k H) as [[Q _]|(e' & Q1 & Q2)].
    + destruct (Q e). apply IN. rewrite Nat2Z.id. split; auto. lia.
    + rewrite Q2. apply IN in Q1 as (_ & Q1). rewrite Nat2Z.id in Q1. congruence.
  - rewrite !(proj2 (nth_error_None _ _)); auto; rewrite ?map_length; lia.
Qed.
Lemma add_gap nv E g : nv <> 0 -> gap (g2_orig g) (new_map (g2_orig g) E) -> undefined (add_edges nv E g).
Proof.
  intros NV (k & Hk & G). unfold add_edges, undefined. destruct (fill _ _) as [cols|] eqn:HC; auto. cbn [g2_E]. destruct (Z.eqb_spec nv 0); [tauto|].
  destruct (@fill_spec _ _ _ HC) as (C1 & _ & C3). destruct (C3 (Z.to_nat k)) as [[_ Q]|(e & Q & _)]; [lia|eapply nth_error_In; eauto|].
  rewrite Z2Nat.id in Q by lia. destruct (G e Q).
Qed.
Lemma gap_orig orig E : orig <> [] -> gap orig (new_map orig E).
Proof. intros H. apply gap_steps; [constructor|]. exists 0. split; [|intros e []]. unfold esize. destruct orig; [tauto|]. cbn [length]. lia. Qed.

(** the calls on one generator *)
Inductive gcall := CAdd (E : list (Z * Z)) | CSet (E : list (Z * Z)) | CClear.
Definition gcall_step (nv : Z) (o : option gen2) (c : gcall) : option gen2 :=
  match o with
  | None => None
  | Some g => match c with CAdd E => add_edges nv E g | CSet E => Some (set_edges nv E g) | CClear => Some (clear_edges g) end
  end.
Definition gcalls (nv : Z) (cs : list gcall) : option gen2 := fold_left (gcall_step nv) cs (Some fresh2).
(** nothing was added since construction or the last clear *)
Definition untouched (cs : list gcall) : bool :=
  fold_left (fun b c => match c with CAdd [] => b | CAdd _ => false | CSet _ => b | CClear => true end) cs true.
Lemma emplaces_nil (new orig : emap_t) : fold_left (fun m '(e, i) => map_emplace pair_cmp2 e i m) new orig = [] -> new = [] /\ orig = [].
Proof.
  revert orig. induction new as [|[e i] new IH]; intros orig; cbn [fold_left]; auto. intros H. apply IH in H as [_ H]. exfalso. revert H. unfold map_emplace.
  destruct orig as [|[q w] t]; cbn; [discriminate|]. destruct (pair_cmp2 e q); cbn; try discriminate. destruct (map_find pair_cmp2 e t); discriminate.
Qed.
Lemma untouched_orig nv cs g : gcalls nv cs = Some g -> (untouched cs = true <-> g2_orig g = []).
Proof.
  revert g. induction cs as [|c cs IH] using rev_ind; intros g H.
  - assert (g = fresh2) by (unfold gcalls in H; cbn in H; congruence). subst. cbn. tauto.
  - unfold gcalls, untouched in *. rewrite fold_left_app in H |- *. cbn [fold_left] in H |- *. destruct (fold_left (gcall_step nv) cs (Some fresh2)) as [g0|] eqn:E0; [|discriminate].
    specialize (IH g0 eq_refl). cbn [gcall_step] in H. destruct c as [E|E|].
    + unfold add_edges in H. destruct (fill _ _); [|discriminate]. assert (HO : g2_orig g = fold_left (fun m '(e, i) => map_emplace pair_cmp2 e i m) (new_map (g2_orig g0) E) (g2_orig g0)) by (injection H as <-; reflexivity).
      rewrite HO. destruct E as [|e E]; [cbn; exact IH|]. split; [discriminate|]. intros Q. apply emplaces_nil in Q as [Q1 Q2]. exfalso. rewrite Q2 in Q1. revert Q1.
      unfold new_map. cbn [fold_left]. unfold add_step at 2. rewrite has_e_nil. cbn [map_set]. assert (G : forall L m, m <> [] -> fold_left (add_step []) L m <> []).
      { induction L as [|y L IHl]; intros m Hm; [exact Hm|]. cbn [fold_left]. apply IHl. unfold add_step. rewrite has_e_nil. destruct m as [|[q w] m]; [tauto|]. cbn. destruct (pair_cmp2 y q); discriminate. }
      apply G. discriminate.
    + injection H as <-. cbn. exact IH.
    + injection H as <-. cbn. tauto.
Qed.
(** add_boundary_elements(E) leaves the generator with exactly the edges E, in order, if and only if no edge is listed twice and nothing else was added since construction or
    clear(); in every other case a column is written out of range or left uninitialised *)
Theorem c116_add nv cs E : nv <> 0 -> gcalls nv cs <> None -> (untouched cs = true -> NoDup E -> holds E (gcalls nv (cs ++ [CAdd E]))) /\
  (untouched cs = false \/ ~ NoDup E -> undefined (gcalls nv (cs ++ [CAdd E]))).
Proof.
  intros NV N. destruct (gcalls nv cs) as [g|] eqn:HG; [|tauto]. assert (U := untouched_orig nv cs HG). unfold gcalls in *. rewrite fold_left_app, HG. cbn [fold_left gcall_step]. split.
  - intros HU ND. apply add_fresh; auto. apply U. auto.
  - intros H. apply add_gap; auto. destruct (g2_orig g) as [|p t] eqn:EO.
    + destruct H as [H|H]; [|apply gap_dup; auto]. assert (untouched cs = true) by (apply U; auto). congruence.
    + apply gap_orig. discriminate.
Qed.
(** set_boundary_elements replaces the edges whatever happened before *)
Theorem c116_set nv cs E : nv <> 0 -> gcalls nv cs <> None -> holds E (gcalls nv (cs ++ [CSet E])).
Proof.
  intros NV N. destruct (gcalls nv cs) as [g|] eqn:HG; [|tauto]. unfold gcalls in *. rewrite fold_left_app, HG. cbn. eexists. split; [reflexivity|]. cbn. destruct (Z.eqb_spec nv 0); tauto.
Qed.
(** REFUTED: edges given in two calls *)
Theorem c116_two_calls_refuted nv E1 E2 : nv <> 0 -> E1 <> [] -> gcalls nv [CAdd E1] <> None -> undefined (gcalls nv [CAdd E1; CAdd E2]).
Proof. intros NV N H. apply (@c116_add nv [CAdd E1] E2 NV H). left. destruct E1; [tauto|reflexivity]. Qed.
(** REFUTED: an edge given twice *)
Theorem c116_duplicate_refuted nv E : nv <> 0 -> ~ NoDup E -> undefined (gcalls nv [CAdd E]).
Proof. intros NV N. apply (@c116_add nv [] E NV); [discriminate|auto]. Qed.
Example c116_sample : gcalls 4 [CAdd [(2, 3); (0, 1); (3, 2)]] = Some (mkG2 [((0, 1), 1); ((2, 3), 0); ((3, 2), 2)] [Some (2, 3); Some (0, 1); Some (3, 2)]) /\
  gcalls 4 [CAdd [(0, 1); (0, 1)]] = None /\ option_map g2_E (gcalls 4 [CAdd [(0, 1); (0, 1); (1, 2)]]) = Some [None; Some (1, 2)] /\
  option_map g2_E (gcalls 4 [CAdd [(0, 1)]; CAdd [(1, 2)]]) = Some [None; Some (1, 2)] /\ option_map g2_E (gcalls 4 [CAdd [(0, 1)]; CClear; CAdd [(1, 2)]]) = Some [Some (1, 2)].
Proof. vm_compute. auto. Qed.

(** ** C117 *)
(** a mesh whose crossings are normalised and flagged correctly, as CutData::bake leaves them *)
Record good_data (D : nat) (s : list Z) (d : bdata) : Prop := { gd_shape : pos_shape s; gd_dim : length s = D; gd_good : Forall (good_crossing D s) (source_vertices d) }.
Notation slots s d := (slot_table s (all_crossings s d)).
Notation total s d := (cut_vertex_size s (crossing_ixs s d)).
Lemma all_crossings_nth s d j src v i : nth_error (all_crossings s d) j = Some (src, v, i) <->
  nth_error (sources d) j = Some src /\ nth_error (source_vertices d) j = Some v /\ nth_error (crossing_ixs s d) j = Some i.
Proof. unfold all_crossings. rewrite (PropsBary.combine_nth (combine (sources d) (source_vertices d)) (crossing_ixs s d) j (src, v) i), PropsBary.combine_nth. tauto. Qed.
Lemma all_crossings_ix s d : map gc_ix (all_crossings s d) = crossing_ixs s d.
Proof.
  unfold all_crossings. assert (L : length (combine (sources d) (source_vertices d)) = length (crossing_ixs s d)) by (rewrite combine_length, sources_len, crossings_ixs_len; lia).
  revert L. generalize (combine (sources d) (source_vertices d)), (crossing_ixs s d). induction l as [|a l IH]; intros [|b l'] L; cbn in *; try discriminate; auto. f_equal. apply IH. lia.
Qed.
Lemma crossing_facts D s d : good_data D s d -> shape_size s <= total s d /\
  (forall j v i, nth_error (source_vertices d) j = Some v -> nth_error (crossing_ixs s d) j = Some i -> (0 <= i < total s d) /\ (is_grid_vertex v = true <-> i < shape_size s)) /\
  (forall i, shape_size s <= i < total s d -> exists j src v, nth_error (sources d) j = Some src /\ nth_error (source_vertices d) j = Some v /\ nth_error (crossing_ixs s d) j = Some i).
Proof.
  intros G. assert (CC : compute_crossings s (source_vertices d) = (crossing_ixs s d, snd (compute_crossings s (source_vertices d)))) by apply surjective_pairing.
  destruct (@c14_crossing_indices _ _ _ _ _ (gd_good G) CC) as (L & A1 & A2 & A3). assert (CV := @c14_vertex_count _ _ _ _ _ (gd_good G) CC). rewrite <- CV in *.
  assert (GE := cut_vertex_size_ge s (crossing_ixs s d)). assert (SP := shape_size_pos (gd_shape G)). split; auto. split.
  - intros j v i Hv Hi. destruct (A2 j v i Hv Hi) as [G1 G2]. destruct (is_grid_vertex v); [destruct (G1 eq_refl) as [_ Q]|assert (Q := G2 eq_refl)]; (split; [lia|]); split; auto; try lia; discriminate.
  - intros i Hi. destruct (A3 i Hi) as (j & v & H1 & H2 & _). assert (Lj : (j < length (sources d))%nat) by (rewrite sources_len; apply nth_error_Some; congruence).
    destruct (nth_error_lt _ _ _ Lj) as [src Hs]. eauto 6.
Qed.
Lemma slots_spec D s d : good_data D s d -> Z.of_nat (length (slots s d)) = total s d - shape_size s /\
  forall k, (k < length (slots s d))%nat -> exists j src v, nth_error (sources d) j = Some src /\ nth_error (source_vertices d) j = Some v /\
    nth_error (crossing_ixs s d) j = Some (shape_size s + Z.of_nat k) /\ nth_error (slots s d) k = Some (Some (src, v, shape_size s + Z.of_nat k)) /\ is_grid_vertex v = false.
Proof.
  intros G. destruct (crossing_facts G) as (GE & B1 & B2). assert (SP := shape_size_pos (gd_shape G)). set (g := shape_size s) in *.
  set (cs := all_crossings s d). set (ws := map (fun c => (c, Z.to_nat (gc_ix c - g))) (filter (fun c => 0 <=? gc_ix c - g) cs)).
  assert (FW : forall sl, fold_left (fun sl c => if 0 <=? gc_ix c - g then col_set sl (Z.to_nat (gc_ix c - g)) c else sl) cs sl = fold_left (fun l w => col_set l (snd w) (fst w)) ws sl).
  { unfold ws. generalize cs. clear. induction cs as [|c cs IH]; intros sl; auto. cbn [fold_left filter]. destruct (0 <=? gc_ix c - g); cbn [map fold_left fst snd]; apply IH. }
  unfold slot_table. fold g cs. rewrite FW. replace (map gc_ix cs) with (crossing_ixs s d) by (symmetry; apply all_crossings_ix). set (N := Z.to_nat (bake_vertices_size s (crossing_ixs s d))).
  assert (SZ : bake_vertices_size s (crossing_ixs s d) = total s d - g).
  { unfold bake_vertices_size. fold g. destruct (fold_max_spec (crossing_ixs s d) (-1)) as (F1 & F2 & F3). set (M := fold_left _ _ (-1)) in *.
    assert (M < total s d). { destruct F3 as [->|F3]; [lia|]. apply In_nth_error in F3 as (j & Hj). destruct (nth_error_lt _ (source_vertices d) j) as [v Hv]; [rewrite <- (crossings_ixs_len s d); apply nth_error_Some; congruence|]. apply (B1 j v M Hv Hj). }
    destruct (Z.eq_dec (total s d) g); [lia|]. destruct (B2 (total s d - 1)) as (j & src & v & _ & _ & Hj); [lia|]. apply nth_error_In in Hj. apply F2 in Hj. lia. }
  assert (LN : Z.of_nat N = total s d - g) by (unfold N; lia).
  split; [destruct (writes_spec ws (repeat None N) 0) as (W & _); rewrite W, repeat_length; auto|].
  intros k Hk. destruct (writes_spec ws (repeat None N) k) as (W1 & _ & W3). rewrite W1 in Hk. rewrite repeat_length in Hk, W3.
  assert (IW : forall c, In (c, k) ws <-> In c cs /\ gc_ix c = g + Z.of_nat k).
  { intros c. unfold ws. rewrite in_map_iff. split.
    - intros (c' & Q & I). apply pair_equal_spec in Q as [-> Q]. apply filter_In in I as [I1 I2]. apply Z.leb_le in I2. split; auto. lia.
    - intros [I1 I2]. exists c. split; [f_equal; lia|]. apply filter_In. split; auto. apply Z.leb_le. lia. }
  destruct W3 as (c & C1 & C2); auto.
  { destruct (B2 (g + Z.of_nat k)) as (j & src & v & J1 & J2 & J3); [lia|]. exists (src, v, g + Z.of_nat k). apply IW. split; auto. apply nth_error_In with j. apply all_crossings_nth. auto. }
  apply IW in C1 as [C1 C3]. destruct c as [[src v] i]. cbn in C3. subst i. apply In_nth_error in C1 as (j & C1). apply all_crossings_nth in C1 as (J1 & J2 & J3).
  exists j, src, v. split; auto. split; auto. split; auto. split; auto. destruct (is_grid_vertex v) eqn:E; auto. destruct (B1 j v _ J2 J3) as [_ [X _]]. specialize (X E). fold g in X. lia.
Qed.
Lemma same_index_pos D s d j k v w i : good_data D s d -> nth_error (source_vertices d) j = Some v -> nth_error (source_vertices d) k = Some w ->
  nth_error (crossing_ixs s d) j = Some i -> nth_error (crossing_ixs s d) k = Some i -> pos v = pos w.
Proof.
  intros G Hv Hw H1 H2. assert (CC : compute_crossings s (source_vertices d) = (crossing_ixs s d, snd (compute_crossings s (source_vertices d)))) by apply surjective_pairing.
  destruct (@c14_crossing_indices _ _ _ _ _ (gd_good G) CC) as (_ & A1 & _). apply (A1 j k v w i i); auto.
Qed.
Lemma grid_pos D s d j v i : good_data D s d -> nth_error (source_vertices d) j = Some v -> nth_error (crossing_ixs s d) j = Some i -> i < shape_size s ->
  pos (vertex_of_coord (unravel s i)) = pos v.
Proof.
  intros G Hv Hi L. assert (CC : compute_crossings s (source_vertices d) = (crossing_ixs s d, snd (compute_crossings s (source_vertices d)))) by apply surjective_pairing.
  destruct (@c14_lookup _ _ _ _ _ (gd_good G) (gd_shape G) (gd_dim G) CC) as (_ & A & _). destruct (A j v i Hv Hi) as (w & W & P). unfold grid_vertex in W.
  destruct (Z.ltb_spec i (shape_size s)); [|lia]. assert (w = vertex_of_coord (unravel s i)) by congruence. subst. auto.
Qed.
(** V(i): every crossing is found at its index, every index below num_vertices() is a position, no other is *)
Theorem c117_V D s d o dx : good_data D s d -> num_vertices s (slots s d) = total s d /\
  (forall j v i, nth_error (source_vertices d) j = Some v -> nth_error (crossing_ixs s d) j = Some i -> gen_V (world_of o dx) s (slots s d) i = Some (world_of o dx v)) /\
  (forall i, 0 <= i < shape_size s -> gen_V (world_of o dx) s (slots s d) i = Some (zipwith Qcplus o (zipwith Qcmult (map Z2Qc (unravel s i)) dx))) /\
  (forall i, shape_size s <= i < total s d -> exists j v, nth_error (source_vertices d) j = Some v /\ nth_error (crossing_ixs s d) j = Some i) /\
  (forall i, total s d <= i -> gen_V (world_of o dx) s (slots s d) i = None).
Proof.
  intros G. destruct (slots_spec G) as (L & SL). destruct (crossing_facts G) as (GE & B1 & B2). split; [unfold num_vertices; lia|]. split; [|split; [|split]].
  - intros j v i Hv Hi. unfold gen_V. destruct (Z.ltb_spec i (shape_size s)) as [H|H]; [unfold world_of; rewrite (grid_pos _ G Hv Hi H); auto|].
    destruct (B1 j v i Hv Hi) as [[_ R] _]. unfold slot. destruct (Z.ltb_spec (i - shape_size s) 0); [lia|]. unfold newV. rewrite nth_error_map.
    destruct (SL (Z.to_nat (i - shape_size s))) as (j' & src & w & J1 & J2 & J3 & J4 & _); [lia|]. rewrite J4. cbn [option_map gc_v fst snd]. f_equal. unfold world_of.
    replace (shape_size s + Z.of_nat (Z.to_nat (i - shape_size s))) with i in J3 by lia. rewrite (same_index_pos _ _ G J2 Hv J3 Hi). auto.
  - intros i Hi. unfold gen_V. destruct (Z.ltb_spec i (shape_size s)); [|lia]. f_equal. unfold world_of. do 2 f_equal. generalize (unravel s i). clear. unfold pos, vertex_of_coord. cbn.
    induction l as [|x l IH]; auto. cbn. rewrite IH. f_equal. qc_lra.
  - intros i Hi. destruct (B2 i Hi) as (j & src & v & _ & J2 & J3). eauto.
  - intros i Hi. unfold gen_V. destruct (Z.ltb_spec i (shape_size s)); [lia|]. unfold slot. destruct (Z.ltb_spec (i - shape_size s) 0); auto. unfold newV. rewrite nth_error_map.
    rewrite (proj2 (nth_error_None (slots s d) _)) by lia. auto.
Qed.
(** vertex_reindexer changes nothing: the indices are already compact *)
Lemma not_grid_quot D s v : good_crossing D s v -> is_grid_vertex v = false -> forallb (fun q => if Qc_eq_dec q 0 then true else false) (v_quot v) = false.
Proof.
  intros (_ & _ & FE & _) N. destruct (forallb _ _) eqn:E; auto. exfalso. assert (is_grid_vertex v = true); [|congruence]. unfold is_grid_vertex.
  unfold flags_exact in FE. revert E. induction FE as [|b q bs qs H FE IH]; auto. cbn [forallb]. destruct (Qc_eq_dec q 0); [|discriminate]. cbn [andb]. intros E. rewrite (proj2 H) by auto. apply IH. auto.
Qed.
Theorem c117_reindexer D s d : good_data D s d -> forall i j, map_find Z.compare i (vertex_reindexer s (slots s d)) = Some j <-> j = i /\ 0 <= i < num_vertices s (slots s d).
Proof.
  intros G. destruct (slots_spec G) as (L & SL). assert (SP := shape_size_pos (gd_shape G)). set (g := shape_size s) in *. unfold vertex_reindexer, num_vertices. fold g.
  set (m0 := fold_left _ (zseq g) []).
  assert (I0 : ssorted Z.compare (keys m0) /\ forall i j, map_find Z.compare i m0 = Some j <-> j = i /\ 0 <= i < g).
  { unfold m0. assert (H : forall l m P, ssorted Z.compare (keys m) -> (forall i j, map_find Z.compare i m = Some j <-> j = i /\ P i) ->
      ssorted Z.compare (keys (fold_left (fun m i => map_set Z.compare i i m) l m)) /\ forall i j, map_find Z.compare i (fold_left (fun m i => map_set Z.compare i i m) l m) = Some j <-> j = i /\ (P i \/ In i l)).
    { induction l as [|x l IH]; intros m P S H; cbn [fold_left].
      - split; auto. intros i j. rewrite H. cbn. tauto.
      - destruct (IH (map_set Z.compare x x m) (fun i => P i \/ i = x)) as [J1 J2]; [apply (map_set_sorted Zcompare_total); auto| |].
        + intros i j. rewrite (map_find_set Zcompare_total) by auto. destruct (Z.compare_spec i x); [subst; split; [intros [= ->]; auto|intros [-> _]; auto]| |]; rewrite H; intuition lia.
        + split; auto. intros i j. rewrite J2. cbn. intuition. }
    destruct (H (zseq g) [] (fun _ => False)) as [J1 J2]; [constructor|intros i j; cbn; split; [discriminate|tauto]|]. split; auto. intros i j. rewrite J2, zseq_in. tauto. }
  assert (GV : forall k, (k < length (slots s d))%nat -> exists c, nth_error (slots s d) k = Some (Some c) /\ gc_ix c = g + Z.of_nat k /\ forallb (fun q => if Qc_eq_dec q 0 then true else false) (v_quot (gc_v c)) = false).
  { intros k Hk. destruct (SL k Hk) as (j & src & v & J1 & J2 & J3 & J4 & J5). eexists. split; [exact J4|]. split; [reflexivity|]. cbn. assert (X := gd_good G). rewrite Forall_forall in X.
    eapply not_grid_quot; eauto. apply X. eapply nth_error_In; eauto. }
  clear L SL. revert GV. generalize (slots s d) as sl. intros sl GV.
  assert (GEN : forall sl base m, (forall k, (k < length sl)%nat -> exists c, nth_error sl k = Some (Some c) /\ gc_ix c = base + Z.of_nat k /\ forallb (fun q => if Qc_eq_dec q 0 then true else false) (v_quot (gc_v c)) = false) ->
    g <= base -> ssorted Z.compare (keys m) -> (forall i j, map_find Z.compare i m = Some j <-> j = i /\ 0 <= i < base) ->
    forall i j, map_find Z.compare i (fst (fold_left (reindex_step s) sl (m, base))) = Some j <-> j = i /\ 0 <= i < base + Z.of_nat (length sl)).
  { clear -SP. induction sl as [|o sl IH]; intros base m GV HB S H i j; cbn [fold_left].
    - cbn. rewrite H. replace (base + 0) with base by lia. tauto.
    - destruct (GV 0%nat) as (c & C1 & C2 & C3); [cbn; lia|]. cbn in C1. assert (o = Some c) by congruence. subst o. cbn [reindex_step]. rewrite C3. fold g. destruct (Z.leb_spec g base); [|lia].
      replace (gc_ix c) with base by lia. rewrite IH.
      + cbn [length]. rewrite Nat2Z.inj_succ. intuition lia.
      + intros k Hk. destruct (GV (Datatypes.S k)) as (c' & D1 & D2 & D3); [cbn; lia|]. exists c'. split; [exact D1|]. split; auto. lia.
      + lia.
      + apply (map_set_sorted Zcompare_total). auto.
      + intros i' j'. rewrite (map_find_set Zcompare_total) by auto. destruct (Z.compare_spec i' base); [subst; split; [intros [= ->]; lia|intros [-> _]; auto]| |]; rewrite H; intuition lia. }
  destruct I0 as [I1 I2]. apply GEN; auto. lia.
Qed.
Lemma reindexer_sorted s sl : ssorted Z.compare (keys (vertex_reindexer s sl)).
Proof.
  unfold vertex_reindexer. assert (H0 : ssorted Z.compare (keys (fold_left (fun m i => map_set Z.compare i i m) (zseq (shape_size s)) ([] : list (Z * Z))))).
  { assert (X : ssorted Z.compare (keys ([] : list (Z * Z)))) by constructor. revert X. generalize ([] : list (Z * Z)). generalize (zseq (shape_size s)).
    induction l as [|x l IH]; intros m S; cbn [fold_left]; auto. apply IH. apply (map_set_sorted Zcompare_total). auto. }
  assert (GEN : forall sl m n, ssorted Z.compare (keys m) -> ssorted Z.compare (keys (fst (fold_left (reindex_step s) sl (m, n))))); [|apply GEN; auto].
  clear. induction sl as [|o sl IH]; intros m n S; [exact S|]. cbn [fold_left]. destruct o as [c|]; cbn [reindex_step]; apply IH; auto. apply (map_set_sorted Zcompare_total). auto.
Qed.
(** compact_vertices: as many columns as there are cut vertices; column k is vertex(grid_size + k) *)
Theorem c117_compact D s d o dx origV : good_data D s d -> Z.of_nat (length (compact_vertices (world_of o dx) s origV (slots s d))) = total s d - shape_size s /\
  forall k, (0 <= k < total s d - shape_size s) -> nth_error (compact_vertices (world_of o dx) s origV (slots s d)) (Z.to_nat k) = Some (gen_vertex (world_of o dx) s origV (slots s d) (shape_size s + k)).
Proof.
  intros G. destruct (slots_spec G) as (L & SL). destruct (c117_V o dx G) as (NV & _). assert (R := c117_reindexer G). assert (S := reindexer_sorted s (slots s d)). rewrite NV in R.
  assert (SP := shape_size_pos (gd_shape G)). destruct (crossing_facts G) as (GE & _). unfold compact_vertices. set (r := vertex_reindexer s (slots s d)) in *.
  assert (IR : forall a b, In (a, b) r <-> b = a /\ 0 <= a < total s d) by (intros a b; rewrite <- (map_find_Some Zcompare_total) by auto; apply R).
  assert (MX : fold_left (fun m p => Z.max m (snd p)) r 0 = total s d - 1).
  { assert (H : forall l m, let M := fold_left (fun m p => Z.max m (snd p)) l m in m <= M /\ (forall p, In p l -> snd p <= M) /\ (M = m \/ exists p : Z * Z, In p l /\ snd p = M)).
    { clear. induction l as [|p l IH]; intros m; cbn zeta; cbn [fold_left]; [split; [lia|]; split; [intros p []|auto]|]. destruct (IH (Z.max m (snd p))) as (I1 & I2 & I3). split; [lia|]. split.
      - intros q [<-|Hq]; [lia|auto].
      - destruct I3 as [->|(q & Q1 & Q2)]; [|right; exists q; split; cbn; auto]. destruct (Z.max_spec m (snd p)) as [[_ ->]|[_ ->]]; [right; exists p; cbn; auto|auto]. }
    destruct (H r 0) as (H1 & H2 & H3). set (M := fold_left _ r 0) in *. assert (X := H2 (total s d - 1, total s d - 1)). cbn in X. destruct H3 as [H3|([a b] & P1 & P2)].
    - rewrite H3 in *. assert (total s d - 1 <= 0) by (apply X, IR; lia). lia.
    - cbn in P2. apply IR in P1 as [-> P1]. assert (total s d - 1 <= M) by (apply X, IR; lia). lia. }
  rewrite MX. replace (total s d - 1 + 1 - shape_size s) with (total s d - shape_size s) by lia. set (N := Z.to_nat (total s d - shape_size s)).
  set (ws := flat_map (fun p => if shape_size s <=? snd p then match gen_vertex (world_of o dx) s origV (slots s d) (fst p) with Some q => [(q, Z.to_nat (snd p - shape_size s))] | None => [] end else []) r).
  assert (FW : forall cols, fold_left (fun cols '(a, b) => if shape_size s <=? b then match gen_vertex (world_of o dx) s origV (slots s d) a with Some p => col_set cols (Z.to_nat (b - shape_size s)) p | None => cols end else cols) r cols
    = fold_left (fun l w => col_set l (snd w) (fst w)) ws cols).
  { unfold ws. generalize r. clear. induction r as [|[a b] r IH]; intros cols; auto. cbn [fold_left flat_map fst snd]. rewrite fold_left_app. destruct (shape_size s <=? b); [|apply IH].
    destruct (gen_vertex _ _ _ _ a); cbn [fold_left fst snd]; apply IH. }
  rewrite FW. split; [destruct (writes_spec ws (repeat None N) 0) as (W & _); rewrite W, repeat_length; unfold N; lia|].
  intros k Hk. destruct (writes_spec ws (repeat None N) (Z.to_nat k)) as (_ & W2 & W3).
  assert (IW : forall q, In (q, Z.to_nat k) ws <-> gen_vertex (world_of o dx) s origV (slots s d) (shape_size s + k) = Some q).
  { intros q. unfold ws. rewrite in_flat_map. split.
    - intros ([a b] & I & Q). apply IR in I as [-> I]. cbn [fst snd] in Q. destruct (Z.leb_spec (shape_size s) a); [|destruct Q]. destruct (gen_vertex (world_of o dx) s origV (slots s d) a) eqn:E; [|destruct Q].
      destruct Q as [Q|[]]. apply pair_equal_spec in Q as [-> Q]. replace (shape_size s + k) with a by lia. auto.
    - intros E. exists (shape_size s + k, shape_size s + k). split; [apply IR; lia|]. cbn [fst snd]. destruct (Z.leb_spec (shape_size s) (shape_size s + k)); [|lia]. rewrite E. left. f_equal. lia. }
  destruct (gen_vertex (world_of o dx) s origV (slots s d) (shape_size s + k)) as [q|] eqn:E.
  - destruct W3 as (q' & Q1 & Q2); [exists q; apply IW; auto|rewrite repeat_length; unfold N; lia|]. rewrite Q2. apply IW in Q1. rewrite <- Q1. auto.
  - rewrite W2, nth_error_repeat by (intros q Q; apply IW in Q; discriminate). destruct (Nat.ltb_spec (Z.to_nat k) N); [auto|unfold N in *; lia].
Qed.
(** vertex(i) agrees with V(i) on the input vertices when none of them lies on a grid vertex and no two coincide: they get the first indices after the grid *)
Definition generic_input (d : bdata) : Prop := Forall (fun v => is_grid_vertex v = false) (bd_V d) /\ NoDup (map pos (bd_V d)).
Lemma fuse_first D s rest vs : forall m c, Forall (fun v => v_wf D v /\ normalised v /\ is_grid_vertex v = false) vs -> NoDup (map pos vs) -> ssorted vkey_cmp (keys m) ->
  (forall v, In v vs -> map_find vkey_cmp (vkey_of v) m = None) -> forall k, (k < length vs)%nat -> nth_error (fst (fuse_loop s m c (vs ++ rest))) k = Some (c + Z.of_nat k).
Proof.
  induction vs as [|v vs IH]; intros m c F ND S NF k Hk; [cbn in Hk; lia|]. inversion F as [|? ? (W & N & NG) F']; subst. inversion ND as [|? ? NI ND']; subst. cbn [app fuse_loop]. rewrite NG.
  rewrite (NF v) by (cbn; auto). assert (X := IH (map_set vkey_cmp (vkey_of v) c m) (c + 1) F' ND'). destruct (fuse_loop s (map_set vkey_cmp (vkey_of v) c m) (c + 1) (vs ++ rest)) as [r c'] eqn:E.
  cbn [fst]. destruct k as [|k]; [cbn; f_equal; lia|]. cbn [nth_error]. cbn in Hk. cbn [fst] in X. rewrite X; [f_equal; lia| | |lia].
  - apply (map_set_sorted vkey_total). auto.
  - intros w Hw. rewrite (map_find_set vkey_total) by auto. rewrite (NF w) by (cbn; auto). destruct (vkey_cmp (vkey_of w) (vkey_of v)) eqn:C; auto. apply (tc_eq vkey_total) in C. exfalso. apply NI.
    assert (pos w = pos v) by (unfold vkey_of in C; apply pair_equal_spec in C as [C1 C2]; unfold pos; rewrite C1, C2; auto). rewrite <- H. apply in_map. auto.
Qed.
Theorem c117_first_indices D s d k : good_data D s d -> generic_input d -> (k < length (bd_V d))%nat -> nth_error (crossing_ixs s d) k = Some (shape_size s + Z.of_nat k).
Proof.
  intros G (H1 & H2) Hk. unfold crossing_ixs, compute_crossings, source_vertices. apply fuse_first with D; auto; [|constructor].
  assert (X := gd_good G). unfold source_vertices in X. rewrite Forall_app in X. destruct X as [X _]. rewrite Forall_forall in *. intros v Hv. destruct (X v Hv) as (A & B & _). auto.
Qed.
Theorem c117_inputs_partial D s d o dx origV : good_data D s d -> generic_input d -> origV = map (world_of o dx) (bd_V d) ->
  (forall i, shape_size s <= i < shape_size s + Z.of_nat (length (bd_V d)) -> gen_vertex (world_of o dx) s origV (slots s d) i = gen_V (world_of o dx) s (slots s d) i) /\
  (forall i, is_orig_vertex s (Z.of_nat (length (bd_V d))) i = true <-> exists k, (k < length (bd_V d))%nat /\ nth_error (crossing_ixs s d) k = Some i).
Proof.
  intros G GI ->. destruct (c117_V o dx G) as (_ & AV & _). split.
  - intros i Hi. set (k := Z.to_nat (i - shape_size s)). assert (Hk : (k < length (bd_V d))%nat) by (unfold k; lia). assert (X := c117_first_indices G GI Hk).
    destruct (nth_error_lt _ (bd_V d) k Hk) as [v Hv]. assert (Hs : nth_error (source_vertices d) k = Some v) by (unfold source_vertices; rewrite nth_error_app1 by auto; auto).
    replace (shape_size s + Z.of_nat k) with i in X by (unfold k; lia). rewrite (AV k v i Hs X). unfold gen_vertex. rewrite map_length. destruct (Z.ltb_spec i (shape_size s)); [lia|].
    destruct (Z.ltb_spec i (shape_size s + Z.of_nat (length (bd_V d)))); [|lia]. fold k. rewrite nth_error_map, Hv. reflexivity.
  - intros i. unfold is_orig_vertex, is_grid_index. split.
    + destruct (Z.ltb_spec i (shape_size s)); [discriminate|]. cbn [negb andb]. intros H1. apply Z.ltb_lt in H1. exists (Z.to_nat (i - shape_size s)). split; [lia|].
      assert (Hk : (Z.to_nat (i - shape_size s) < length (bd_V d))%nat) by lia. rewrite (c117_first_indices G GI Hk). f_equal. lia.
    + intros (k & Hk & E). rewrite (c117_first_indices G GI Hk) in E. assert (shape_size s + Z.of_nat k = i) by congruence. destruct (Z.ltb_spec i (shape_size s)); [lia|]. apply Z.ltb_lt. lia.
Qed.
(** REFUTED: beyond the input vertices vertex(i) is shifted: it is the position of vertex i - (number of input vertices) *)
Theorem c117_shift_refuted o dx s origV sl i : shape_size s + Z.of_nat (length origV) <= i ->
  gen_vertex (world_of o dx) s origV sl i = gen_V (world_of o dx) s sl (i - Z.of_nat (length origV)).
Proof.
  intros H. unfold gen_vertex, gen_V. destruct (Z.ltb_spec i (shape_size s)); [lia|]. destruct (Z.ltb_spec i (shape_size s + Z.of_nat (length origV))); [lia|].
  destruct (Z.ltb_spec (i - Z.of_nat (length origV)) (shape_size s)); [lia|]. f_equal. lia.
Qed.
(** REFUTED: every grid vertex is called a new vertex *)
Theorem c117_is_new_refuted s no sl i : 0 <= i < shape_size s -> is_new_vertex s no sl i = true.
Proof. intros H. unfold is_new_vertex, is_orig_vertex, is_grid_index, num_vertices. destruct (Z.ltb_spec i (shape_size s)); [|lia]. cbn. apply Z.ltb_lt. lia. Qed.
Lemma baked_good D s grid d : length s = D -> baked_mesh D s grid d -> good_data D s d.
Proof. intros L B. constructor; auto; apply B. Qed.
Definition w22 := world_of [0; 0]%Qc [1; 1]%Qc.
(** two segments with four end points (two of them coincide) and crossings at (1, 1/2) and (3/2, 1): compact_vertices repeats the first input vertex *)
Theorem c117_compact_refuted : exists D s d origV k, good_data D s d /\ origV = map w22 (bd_V d) /\ 0 <= k < total s d - shape_size s /\
  exists p q, nth_error (compact_vertices w22 s origV (slots s d)) (Z.to_nat k) = Some (Some p) /\ gen_V w22 s (slots s d) (shape_size s + k) = Some q /\ p <> q.
Proof.
  exists 2%nat, [5; 5], soup, (map w22 (bd_V soup)), 4. assert (G := @baked_good 2 [5; 5] _ soup eq_refl soup_baked). split; auto. split; auto. split; [vm_compute; split; [discriminate|reflexivity]|].
  destruct (@c117_compact _ _ _ [0; 0]%Qc [1; 1]%Qc (map w22 (bd_V soup)) G) as (_ & C). specialize (C 4). fold w22 in C. rewrite C by (vm_compute; split; [discriminate|reflexivity]).
  unfold w22 at 1. rewrite c117_shift_refuted by (vm_compute; discriminate). fold w22. replace (shape_size [5; 5] + 4 - Z.of_nat (length (map w22 (bd_V soup)))) with 25 by reflexivity. replace (shape_size [5; 5] + 4) with 29 by reflexivity.
  assert (X : match gen_V w22 [5; 5] (slots [5; 5] soup) 25, gen_V w22 [5; 5] (slots [5; 5] soup) 29 with Some p, Some q => map this p <> map this q | _, _ => False end) by (vm_compute; discriminate).
  destruct (gen_V w22 [5; 5] (slots [5; 5] soup) 25) as [p|], (gen_V w22 [5; 5] (slots [5; 5] soup) 29) as [q|]; try tauto. exists p, q. split; auto. split; auto. intros ->. apply X. auto.
Qed.
(** non-vacuity of c117_inputs_partial: an edge whose ends are generic *)
Definition one_V : list vertex := map from_vertex [[qq 1 2; qq 1 2]; [qq 3 2; qq 3 4]].
Definition one : bdata := mkBD one_V [(0, 1)] [] [bake_edge (Some [5; 5]) (nth 0 one_V (mkVertex [] [] [])) (nth 1 one_V (mkVertex [] [] [])) 0] [].
Example c117_sample : good_data 2 [5; 5] one /\ generic_input one /\ total [5; 5] one = 28.
Proof.
  split; [constructor; [repeat constructor|reflexivity|]|split; [split|vm_compute; reflexivity]].
  - apply Forall_forall. intros v Hv. apply goodb_ok. revert v Hv. apply forallb_forall. vm_compute. reflexivity.
  - repeat constructor.
  - assert (H : NoDup (map (map this) (map pos (bd_V one)))) by (vm_compute; repeat constructor; cbn; intuition discriminate). apply NoDup_map_inv in H. exact H.
Qed.

(** ** C118 *)
Lemma fold_max_gc cs : forall m, let M := fold_left (fun m c => Z.max m (gc_ix c + 1)) cs m in m <= M /\ (forall c, In c cs -> gc_ix c < M) /\ (M = m \/ exists c, In c cs /\ gc_ix c + 1 = M).
Proof.
  induction cs as [|c cs IH]; intros m; cbn zeta; cbn [fold_left]; [split; [lia|]; split; [intros c []|auto]|]. destruct (IH (Z.max m (gc_ix c + 1))) as (I1 & I2 & I3). split; [lia|]. split.
  - intros q [<-|Hq]; [lia|auto].
  - destruct I3 as [I3|(q & Q1 & Q2)]; [|right; exists q; split; cbn; auto]. destruct (Z.max_spec m (gc_ix c + 1)) as [[_ E]|[_ E]]; [right; exists c; cbn; split; auto; lia|left; lia].
Qed.
Lemma generate_vertices_eq D s d : good_data D s d -> generate_vertices s (slots s d) = map (option_map gc_v) (slots s d).
Proof.
  intros G. destruct (slots_spec G) as (L & SL). assert (SP := shape_size_pos (gd_shape G)). destruct (crossing_facts G) as (GE & _). set (sl := slots s d) in *. set (g := shape_size s) in *.
  unfold generate_vertices. fold g. set (cs := flat_map _ sl).
  assert (IC : forall c, In c cs <-> exists k, (k < length sl)%nat /\ nth_error sl k = Some (Some c)).
  { intros c. unfold cs. rewrite in_flat_map. split.
    - intros ([c'|] & I & Q); [|destruct Q]. destruct Q as [->|[]]. apply In_nth_error in I as (k & Hk). exists k. split; auto. apply nth_error_Some. congruence.
    - intros (k & _ & Hk). exists (Some c). split; [eapply nth_error_In; eauto|cbn; auto]. }
  assert (IX : forall k c, nth_error sl k = Some (Some c) -> gc_ix c = g + Z.of_nat k).
  { intros k c Hk. destruct (SL k) as (j & src & v & _ & _ & _ & J & _); [apply nth_error_Some; congruence|]. rewrite Hk in J. assert (c = (src, v, g + Z.of_nat k)) by congruence. subst. reflexivity. }
  assert (SZ : Z.max 0 (fold_left (fun m c => Z.max m (gc_ix c + 1)) cs 0 - g) = Z.of_nat (length sl)).
  { destruct (fold_max_gc cs 0) as (M1 & M2 & M3). set (M := fold_left _ cs 0) in *. destruct (Nat.eq_dec (length sl) 0) as [LP|LP].
    - destruct M3 as [->|(c & C & _)]; [lia|]. apply IC in C as (k & Hk & _). lia.
    - destruct (SL (length sl - 1)%nat) as (j & src & v & _ & _ & _ & J & _); [lia|].
      assert (A : g + Z.of_nat (length sl - 1) < M) by (apply (M2 (src, v, g + Z.of_nat (length sl - 1))); apply IC; exists (length sl - 1)%nat; split; auto; lia).
      destruct M3 as [->|(c & C & C2)]; [lia|]. apply IC in C as (k & Hk & C). apply IX in C. lia. }
  rewrite SZ, Nat2Z.id. set (ws := map (fun c => (gc_v c, Z.to_nat (gc_ix c - g))) cs).
  assert (RG : forall c, In c cs -> g <= gc_ix c /\ 0 <= gc_ix c - g < Z.of_nat (length sl)) by (intros c C; apply IC in C as (k & Hk & C); apply IX in C; lia).
  assert (FW : forall V, fold_left (fun V c => if is_grid_index s (gc_ix c) then V else
      let i := gc_ix c - g in if (0 <=? i) && (i <? Z.of_nat (length sl)) then col_set V (Z.to_nat i) (gc_v c) else V) cs V = fold_left (fun l w => col_set l (snd w) (fst w)) ws V).
  { unfold ws. clear -RG. induction cs as [|c cs IH]; intros V; auto. cbn [fold_left map fst snd]. destruct (RG c) as [R1 R2]; [cbn; auto|]. unfold is_grid_index. fold g.
    destruct (Z.ltb_spec (gc_ix c) g); [lia|]. cbn zeta. destruct (Z.leb_spec 0 (gc_ix c - g)), (Z.ltb_spec (gc_ix c - g) (Z.of_nat (length sl))); try lia. cbn [andb]. apply IH. intros c' Hc. apply RG. cbn; auto. }
  rewrite FW. apply nth_error_ext. intros k. destruct (writes_spec ws (repeat None (length sl)) k) as (W1 & _ & W3). rewrite repeat_length in W1, W3.
  destruct (Nat.lt_ge_cases k (length sl)) as [Hk|Hk].
  - destruct (SL k Hk) as (j & src & v & _ & _ & _ & J & _). rewrite nth_error_map. rewrite J. cbn [option_map gc_v fst snd].
    assert (IW : forall w, In (w, k) ws <-> w = v).
    { intros w. unfold ws. rewrite in_map_iff. split.
      - intros (c & Q & C). apply pair_equal_spec in Q as [<- Q]. assert (R := RG c C). apply IC in C as (k' & Hk' & C). assert (X := IX k' c C). assert (k' = k) by lia. subst k'. rewrite J in C.
        assert (EC : c = (src, v, g + Z.of_nat k)) by congruence. rewrite EC. reflexivity.
      - intros ->. exists (src, v, g + Z.of_nat k). split; [cbn; f_equal; unfold gc_ix; cbn; lia|]. apply IC. exists k. auto. }
    destruct W3 as (w & Q1 & Q2); auto; [exists v; apply IW; auto|]. apply IW in Q1. subst. auto.
  - rewrite !(proj2 (nth_error_None _ _)); auto; [rewrite map_length; lia|rewrite W1; lia].
Qed.
(** the cut vertices of the mesh: one per index after the grid vertices, each crossing at its index *)
Theorem c118_vertices D s d : good_data D s d -> Z.of_nat (length (generate_vertices s (slots s d))) = total s d - shape_size s /\ ~ In None (generate_vertices s (slots s d)) /\
  forall j v i, nth_error (source_vertices d) j = Some v -> nth_error (crossing_ixs s d) j = Some i -> shape_size s <= i ->
    exists w, nth_error (generate_vertices s (slots s d)) (Z.to_nat (i - shape_size s)) = Some (Some w) /\ pos w = pos v /\ In w (source_vertices d).
Proof.
  intros G. rewrite (generate_vertices_eq G). destruct (slots_spec G) as (L & SL). destruct (crossing_facts G) as (GE & B1 & _). split; [rewrite map_length; auto|]. split.
  - intros H. apply in_map_iff in H as (o & Ho & H). apply In_nth_error in H as (k & Hk). destruct (SL k) as (j & src & v & _ & _ & _ & J & _); [apply nth_error_Some; congruence|].
    rewrite Hk in J. assert (o = Some (src, v, shape_size s + Z.of_nat k)) by congruence. subst. discriminate.
  - intros j v i Hv Hi LE. destruct (B1 j v i Hv Hi) as [[_ R] _]. destruct (SL (Z.to_nat (i - shape_size s))) as (j' & src & w & J1 & J2 & J3 & J4 & _); [lia|]. exists w. rewrite nth_error_map, J4.
    split; [reflexivity|]. replace (shape_size s + Z.of_nat (Z.to_nat (i - shape_size s))) with i in J3 by lia. split; [apply (same_index_pos _ _ G J2 Hv J3 Hi)|eapply nth_error_In; eauto].
Qed.

Lemma sequence_nth (A : Type) (l : list (option A)) : forall r, sequence l = Some r -> length r = length l /\ forall i, nth_error l i = option_map Some (nth_error r i).
Proof.
  induction l as [|o l IH]; intros r S; cbn [sequence] in S.
  - assert (r = []) by congruence. subst. split; auto. intros [|i]; reflexivity.
  - destruct o as [a|]; [|discriminate]. destruct (sequence l) as [r'|]; [|discriminate]. assert (r = a :: r') by congruence. subst. destruct (IH r' eq_refl) as [I1 I2]. split; [cbn; auto|].
    intros [|i]; cbn; auto.
Qed.
Definition dot2 (a b : list Qc) : Qc := (qat a 0 * qat b 0 + qat a 1 * qat b 1)%Qc.
Definition diff2 (p q : list Qc) : list Qc := [qat q 0 - qat p 0; qat q 1 - qat p 1]%Qc.
(** the first axis that the mask binds, and the value there *)
Definition first_bound (m : mask) (a : nat) (v : Z) : Prop := nth_error m a = Some (Some v) /\ forall b, (b < a)%nat -> nth_error m b = Some None.
Lemma first_axis_spec m : forall k, (exists a v, first_bound m a v) /\ (forall a v, first_bound m a v -> first_axis true k m = k + Z.of_nat a) \/ (forall a v, nth_error m a <> Some (Some v)) /\ first_axis true k m = -1.
Proof.
  induction m as [|o m IH]; intros k; [right; split; auto; intros [|a] v; discriminate|]. destruct o as [v|].
  - left. split; [exists O, v; split; [auto|intros b Hb; lia]|]. intros a w (A1 & A2). destruct a as [|a]; [cbn; lia|]. specialize (A2 O ltac:(lia)). discriminate.
  - cbn [first_axis]. destruct (IH (k + 1)) as [[(a & v & A) B]|[A B]].
    + left. split; [exists (S a), v; destruct A as [A1 A2]; split; [auto|intros [|b] Hb; cbn; auto; apply A2; lia]|]. intros a' v' (A1 & A2). destruct a' as [|a']; [discriminate|]. cbn [is_some Bool.eqb]. rewrite (B a' v'); [lia|].
      split; [auto|intros b Hb; apply (A2 (S b)); lia].
    + right. split; [intros [|a] v; cbn; [discriminate|apply A]|]. cbn. auto.
Qed.
Lemma bound_axis_spec m a v : first_bound m a v -> bound_axis m = Z.of_nat a.
Proof. intros F. destruct (first_axis_spec m 0) as [[_ H]|[H _]]; [unfold bound_axis; rewrite (H a v F); lia|]. destruct F as [F _]. destruct (H _ _ F). Qed.
Lemma bound_axis_at m a w : at_ix m a = Some (Some w) -> a = bound_axis m -> first_bound m (Z.to_nat a) w.
Proof.
  intros H ->. assert (R := at_ix_range _ _ H). destruct (first_axis_spec m 0) as [[(a & v & F) _]|[F _]].
  - assert (E := bound_axis_spec F). rewrite E in H |- *. unfold at_ix in H. destruct (Z.ltb_spec (Z.of_nat a) 0); [lia|]. rewrite Nat2Z.id in *. destruct F as [F1 F2]. split; auto.
  - unfold at_ix in H. destruct (Z.ltb_spec (bound_axis m) 0); [discriminate|]. destruct (F _ _ H).
Qed.
(** the edges of the 2D mesh: the pieces of the input edges, in order, then the grid edges, in order *)
Theorem c118_edges2 origV E cut grid out : generate_edges2 origV E cut grid = Some out ->
  length out = (length cut + length grid)%nat /\
  (forall i m ix p, nth_error cut i = Some (m, ix, p) -> exists a b pa pb n, at_ix E p = Some (a, b) /\ at_ix origV a = Some pa /\ at_ix origV b = Some pb /\
     nth_error out i = Some (mkOE m ix (IdMesh p) (Some n)) /\ dot2 n (diff2 pa pb) = 0%Qc /\ dot2 n n = dot2 (diff2 pa pb) (diff2 pa pb) /\
     (0 <= qat (diff2 pa pb) 0 * qat n 1 - qat (diff2 pa pb) 1 * qat n 0)%Qc) /\
  (forall i m ix, nth_error grid i = Some (m, ix) -> exists a v n, first_bound m a v /\ nth_error out (length cut + i) = Some (mkOE m ix (IdAxial (Z.of_nat a) v) (Some n)) /\
     length n = 2%nat /\ forall b, (b < 2)%nat -> qat n b = if (b =? a)%nat then 1%Qc else 0%Qc).
Proof.
  unfold generate_edges2. intros S. apply sequence_nth in S as [L S]. rewrite app_length, !map_length in L. split; auto. split.
  - intros i m ix p H. assert (Hi : (i < length cut)%nat) by (apply nth_error_Some; congruence). specialize (S i). rewrite nth_error_app1 in S by (rewrite map_length; auto). rewrite nth_error_map, H in S. cbn [option_map mesh_edge2] in S.
    destruct (nth_error out i) as [o|]; [|discriminate]. cbn [option_map] in S. apply Some_inj in S. destruct (at_ix E p) as [[a b]|]; [|discriminate]. unfold normal2 in S. cbn [fst snd] in S.
    destruct (at_ix origV a) as [pa|] eqn:A; [|discriminate]. destruct (at_ix origV b) as [pb|] eqn:B; [|discriminate]. apply Some_inj in S. subst o. eexists a, b, pa, pb, _. split; auto. split; auto. split; auto. split; [reflexivity|].
    unfold dot2, diff2. cbn [qat nth]. split; [ring|]. split; [ring|]. generalize (qat pa 0), (qat pa 1), (qat pb 0), (qat pb 1). intros x0 y0 x1 y1. assert (SQ : forall z : Qc, (0 <= z * z)%Qc) by (intros z; unfold Qcle; q_push; nra).
    replace ((x1 - x0) * (x1 - x0) - (y1 - y0) * - (y1 - y0))%Qc with ((x1 - x0) * (x1 - x0) + (y1 - y0) * (y1 - y0))%Qc by ring. apply (Qcplus_le_compat 0 _ 0 _); apply SQ.
  - intros i m ix H. assert (Hi : (i < length grid)%nat) by (apply nth_error_Some; congruence). specialize (S (length cut + i)%nat). rewrite nth_error_app2 in S by (rewrite map_length; lia).
    rewrite map_length in S. replace (length cut + i - length cut)%nat with i in S by lia. rewrite nth_error_map, H in S. cbn [option_map] in S. unfold axial_edge2 in S. cbn [fst snd] in S.
    destruct (nth_error out (length cut + i)) as [o|]; [|discriminate]. cbn [option_map] in S. apply Some_inj in S. destruct (at_ix m (bound_axis m)) as [[v|]|] eqn:A; try discriminate. apply Some_inj in S. subst o.
    assert (R := at_ix_range _ _ A). exists (Z.to_nat (bound_axis m)), v, (unit2 (bound_axis m)). split; [apply bound_axis_at; auto|]. rewrite Z2Nat.id by lia. split; auto. split; auto.
    intros [|[|b]] Hb; [| |lia]; unfold unit2; cbn [qat nth]; destruct (Nat.eqb_spec 0 (Z.to_nat (bound_axis m))), (Nat.eqb_spec 1 (Z.to_nat (bound_axis m))); destruct (Z.eqb_spec (bound_axis m) 0), (Z.eqb_spec (bound_axis m) 1); auto; lia.
Qed.
(** 3D: pieces of input edges keep their parent, pieces without one get the first bound axis of their mask *)
Theorem c118_edges3 cut grid out : generate_edges3 cut grid = Some out -> length out = (length cut + length grid)%nat /\
  (forall i m ix p, nth_error cut i = Some (m, ix, p) -> exists id, nth_error out i = Some (mkOE m ix id None) /\ (p <> -1 -> id = IdMesh p) /\ (p = -1 -> exists a v, first_bound m a v /\ id = IdAxial (Z.of_nat a) v)) /\
  (forall i m ix, nth_error grid i = Some (m, ix) -> exists id, nth_error out (length cut + i) = Some (mkOE m ix id None)).
Proof.
  unfold generate_edges3. intros S. apply sequence_nth in S as [L S]. rewrite app_length, !map_length in L. split; auto. split.
  - intros i m ix p H. assert (Hi : (i < length cut)%nat) by (apply nth_error_Some; congruence). specialize (S i). rewrite nth_error_app1 in S by (rewrite map_length; auto). rewrite nth_error_map, H in S. cbn [option_map cut_edge3] in S.
    destruct (nth_error out i) as [o|]; [|discriminate]. cbn [option_map] in S. apply Some_inj in S. destruct (Z.eqb_spec p (-1)) as [->|N].
    + destruct (at_ix m (bound_axis m)) as [[v|]|] eqn:A; try discriminate. apply Some_inj in S. subst o. eexists. split; [reflexivity|]. split; [congruence|]. intros _. assert (R := at_ix_range _ _ A).
      exists (Z.to_nat (bound_axis m)), v. split; [apply bound_axis_at; auto|]. rewrite Z2Nat.id by lia. auto.
    + apply Some_inj in S. subst o. eexists. split; [reflexivity|]. split; [auto|congruence].
  - intros i m ix H. specialize (S (length cut + i)%nat). rewrite nth_error_app2 in S by (rewrite map_length; lia). rewrite map_length in S. replace (length cut + i - length cut)%nat with i in S by lia.
    rewrite nth_error_map, H in S. cbn [option_map] in S. destruct (nth_error out (length cut + i)) as [o|]; [|discriminate]. cbn [option_map] in S. apply Some_inj, Some_inj in S. subst o. eexists. reflexivity.
Qed.
(** REFUTED: in 3D every grid edge is reported as a piece of input edge 0 *)
Theorem c118_grid_edges3_refuted cut grid out i m ix : generate_edges3 cut grid = Some out -> nth_error grid i = Some (m, ix) -> nth_error out (length cut + i) = Some (mkOE m ix (IdMesh 0) None).
Proof.
  unfold generate_edges3. intros S H. apply sequence_nth in S as [L S]. specialize (S (length cut + i)%nat). rewrite nth_error_app2 in S by (rewrite map_length; lia). rewrite map_length in S.
  replace (length cut + i - length cut)%nat with i in S by lia. rewrite nth_error_map, H in S. cbn [option_map] in S. destruct (nth_error out (length cut + i)) as [o|]; [|discriminate]. cbn [option_map] in S. apply Some_inj, Some_inj in S.
  subst o. reflexivity.
Qed.
(** the calls succeed when the parents are input edges and every other edge lies on a grid plane *)
Theorem c118_edges_defined origV E cut grid : (forall m ix, In (m, ix) grid -> exists a v, first_bound m a v) ->
  ((forall m ix p, In (m, ix, p) cut -> exists a b pa pb, at_ix E p = Some (a, b) /\ at_ix origV a = Some pa /\ at_ix origV b = Some pb) -> exists out, generate_edges2 origV E cut grid = Some out) /\
  ((forall m ix p, In (m, ix, p) cut -> p = -1 -> exists a v, first_bound m a v) -> exists out, generate_edges3 cut grid = Some out).
Proof.
  assert (X : forall m a v, first_bound m a v -> at_ix m (bound_axis m) = Some (Some v)).
  { intros m a v F. rewrite (bound_axis_spec F). unfold at_ix. destruct (Z.ltb_spec (Z.of_nat a) 0); [lia|]. rewrite Nat2Z.id. apply F. }
  intros G. split; intros C; apply sequence_some; intros o O; apply in_app_or in O as [O|O]; apply in_map_iff in O as (c & <- & O).
  - destruct c as [[m ix] p]. destruct (C m ix p O) as (a & b & pa & pb & E1 & E2 & E3). cbn [mesh_edge2]. rewrite E1. unfold normal2. cbn [fst snd]. rewrite E2, E3. discriminate.
  - destruct c as [m ix]. destruct (G m ix O) as (a & v & F). unfold axial_edge2. cbn [fst snd]. rewrite (X _ _ _ F). discriminate.
  - destruct c as [[m ix] p]. cbn [cut_edge3]. destruct (Z.eqb_spec p (-1)) as [P|P]; [|discriminate]. destruct (C m ix p O P) as (a & v & F). rewrite (X _ _ _ F). discriminate.
  - discriminate.
Qed.
Lemma numbered_In (A : Type) (l : list A) i x : In (i, x) (numbered l) <-> at_ix l i = Some x.
Proof.
  unfold numbered, at_ix. split.
  - intros H. apply In_nth_error in H as (k & H). apply PropsBary.combine_nth in H as [H1 H2]. rewrite nth_error_map in H1. destruct (nth_error (seq 0 (length l)) k) as [j|] eqn:Ej; [|discriminate]. cbn in H1. assert (K : (k < length l)%nat) by (apply nth_error_Some; congruence).
    assert (E2 := nth_error_nth (seq 0 (length l)) k 0%nat Ej). rewrite seq_nth in E2 by auto. assert (i = Z.of_nat k) by (assert (Z.of_nat j = i) by congruence; lia). subst i. destruct (Z.ltb_spec (Z.of_nat k) 0); [lia|]. rewrite Nat2Z.id. auto.
  - destruct (Z.ltb_spec i 0); [discriminate|]. intros H1. assert (K : (Z.to_nat i < length l)%nat) by (apply nth_error_Some; congruence). apply (nth_error_In _ (Z.to_nat i)). apply PropsBary.combine_nth. split; auto.
    rewrite nth_error_map. rewrite (nth_error_nth' _ 0%nat) by (rewrite seq_length; auto). rewrite seq_nth by auto. cbn. f_equal. lia.
Qed.
Lemma sequence_In (A : Type) (l : list (option A)) r a : sequence l = Some r -> (In a r <-> In (Some a) l).
Proof.
  intros S. apply sequence_nth in S as [L S]. split; intros H; apply In_nth_error in H as (k & H); apply (nth_error_In _ k).
  - rewrite S, H. reflexivity.
  - rewrite S in H. destruct (nth_error r k); [|discriminate]. cbn in H. congruence.
Qed.
(** the interpolated edges: one for each piece of an input edge, under its position, with the parameters of its two ends *)
Theorem c118_interp s d sl cut out : mesh_cut_edges s d sl cut = Some out ->
  NoDup (map fst out) /\ (forall i, In i (map fst out) <-> exists m ix p, at_ix cut i = Some (m, ix, p) /\ 0 <= p) /\
  forall i ie, In (i, ie) out -> exists m x y, at_ix cut i = Some (m, (x, y), ie_parent ie) /\ end_coord s d sl (ie_parent ie) x = Some (ie_t0 ie) /\ end_coord s d sl (ie_parent ie) y = Some (ie_t1 ie).
Proof.
  intros S. set (f := fun c : Z * cut_edge => let '(i, (_, (x, y), p)) := c in if 0 <=? p then
      [match end_coord s d sl p x, end_coord s d sl p y with Some a, Some b => Some (i, mkIE a b p) | _, _ => None end] else []).
  change (sequence (flat_map f (numbered cut)) = Some out) in S. split; [|split].
  - assert (ND : NoDup (map fst (numbered cut))).
    { unfold numbered. assert (L : length (map Z.of_nat (seq 0 (length cut))) = length cut) by (rewrite map_length, seq_length; auto). assert (NS : NoDup (map Z.of_nat (seq 0 (length cut)))).
      { apply FinFun.Injective_map_NoDup; [intros a b; lia|apply seq_NoDup]. }
      revert L NS. generalize (map Z.of_nat (seq 0 (length cut))) as L0. generalize cut. clear. intros cut L0. revert cut. induction L0 as [|a l IH]; intros [|c cut] L N; try discriminate; cbn; [constructor|]. inversion N; subst. constructor; [|apply IH; auto].
      intros I. apply in_map_iff in I as ((x, y) & <- & I). apply in_combine_l in I. auto. }
    revert out S ND. generalize (numbered cut). induction l as [|c l IH]; intros out S ND; cbn [flat_map] in S; [assert (out = []) by (cbn in S; congruence); subst; constructor|].
    destruct c as [i [[m [x y]] p]]. inversion ND as [|? ? N1 N2]; subst. cbn [f] in S. destruct (0 <=? p); [|cbn [app] in S; apply IH; auto]. cbn [app sequence] in S.
    destruct (end_coord s d sl p x) as [a|]; [|discriminate]. destruct (end_coord s d sl p y) as [b|]; [|discriminate]. destruct (sequence (flat_map f l)) as [r|] eqn:SR; [|discriminate]. assert (out = (i, mkIE a b p) :: r) by congruence. subst out.
    cbn [map fst]. constructor; [|apply IH; auto]. intros I. apply in_map_iff in I as ((i', ie) & E & I). cbn in E. subst i'. apply (sequence_In _ _ SR) in I. apply in_flat_map in I as ((i', [[m' [x' y']] p']) & I1 & I2).
    cbn [f] in I2. destruct (0 <=? p'); [|destruct I2]. destruct I2 as [I2|[]]. destruct (end_coord s d sl p' x'); [|discriminate]. destruct (end_coord s d sl p' y'); [|discriminate].
    apply Some_inj, pair_equal_spec in I2 as [-> _]. apply N1. cbn [fst]. apply (in_map fst) in I1. exact I1.
  - intros i. rewrite in_map_iff. split.
    + intros ((i', ie) & E & I). cbn in E. subst i'. apply (sequence_In _ _ S) in I. apply in_flat_map in I as ((i', [[m' [x' y']] p']) & I1 & I2). apply numbered_In in I1.
      cbn [f] in I2. destruct (Z.leb_spec 0 p'); [|destruct I2]. destruct I2 as [I2|[]]. destruct (end_coord s d sl p' x'); [|discriminate]. destruct (end_coord s d sl p' y'); [|discriminate].
      apply Some_inj, pair_equal_spec in I2 as [-> _]. eauto.
    + intros (m & [x y] & p & H & P). apply numbered_In in H. destruct (f (i, (m, (x, y), p))) as [|o l] eqn:F; [cbn [f] in F; destruct (Z.leb_spec 0 p); [discriminate|lia]|]. cbn [f] in F. destruct (Z.leb_spec 0 p); [|lia].
      assert (O : In o (flat_map f (numbered cut))). { apply in_flat_map. exists (i, (m, (x, y), p)). split; auto. cbn [f]. destruct (Z.leb_spec 0 p); [|lia]. rewrite F. cbn; auto. }
      assert (EO : o = match end_coord s d sl p x, end_coord s d sl p y with Some a, Some b => Some (i, mkIE a b p) | _, _ => None end) by congruence.
      destruct o as [[i' ie]|]; [|exfalso; apply sequence_nth in S as [_ S]; apply In_nth_error in O as (k & O); rewrite S in O; destruct (nth_error out k); discriminate].
      exists (i', ie). apply (sequence_In _ _ S) in O. split; auto. destruct (end_coord s d sl p x), (end_coord s d sl p y); try discriminate. apply Some_inj, pair_equal_spec in EO as [EO _]. auto.
  - intros i ie I. apply (sequence_In _ _ S) in I. apply in_flat_map in I as ((i', [[m' [x' y']] p']) & I1 & I2). apply numbered_In in I1.
    cbn [f] in I2. destruct (Z.leb_spec 0 p'); [|destruct I2]. destruct I2 as [I2|[]]. destruct (end_coord s d sl p' x') eqn:E1; [|discriminate]. destruct (end_coord s d sl p' y') eqn:E2; [|discriminate].
    apply Some_inj, pair_equal_spec in I2 as [<- <-]. cbn [ie_parent ie_t0 ie_t1]. eauto 6.
Qed.
(** a position with index [i] *)
Definition index_at (s : list Z) (d : bdata) (i : Z) (P : list Qc) : Prop :=
  (0 <= i < shape_size s /\ P = pos (vertex_of_coord (unravel s i))) \/ exists j v, nth_error (source_vertices d) j = Some v /\ nth_error (crossing_ixs s d) j = Some i /\ P = pos v.
Lemma grid_wf D s i : length s = D -> v_wf D (vertex_of_coord (unravel s i)).
Proof. intros <-. assert (LU : forall s j, length (unravel s j) = length s) by (induction s0; intros; cbn; auto). unfold v_wf, vertex_of_coord. cbn [v_coord v_quot v_clamped]. rewrite !repeat_length, LU. auto. Qed.
Definition on_edge (D : nat) (a b : vertex) (t : Qc) (P : list Qc) : Prop := forall k, (k < D)%nat -> qat P k = on_segment a b t k.
(** the parameter of an end on its parent edge: exact where the index stands for a grid vertex, an input vertex or a triangle crossing; within the snapping distance where it stands for a crossing of that edge *)
Theorem c118_params D s grid d p x y va vb i t P : baked_mesh D s grid d -> length s = D -> Forall (input_vertex D) (bd_V d) ->
  at_ix (bd_E d) p = Some (x, y) -> at_ix (bd_V d) x = Some va -> at_ix (bd_V d) y = Some vb -> pos va <> pos vb ->
  end_coord s d (slots s d) p i = Some t -> index_at s d i P ->
  (forall t', on_edge D va vb t' P -> (forall e v j, slot (slots s d) (i - shape_size s) <> Some (SEdge e, v, j)) -> t = t') /\
  (forall e v j, slot (slots s d) (i - shape_size s) = Some (SEdge e, v, j) -> ei_index e = p ->
     (0 < t)%Qc /\ (t < 1)%Qc /\ forall k, (k < D)%nat -> (qabs (qat P k - on_segment va vb t k) < bake_threshold grid + bake_threshold grid)%Qc).
Proof.
  intros B LD IV HE HX HY NE HC IX. assert (G := baked_good LD B). destruct (slots_spec G) as (L & SL). destruct (crossing_facts G) as (_ & CF & _). assert (SP := shape_size_pos (gd_shape G)).
  assert (Ia : input_vertex D va) by (rewrite Forall_forall in IV; apply IV, (at_ix_In _ _ HX)). assert (Ib : input_vertex D vb) by (rewrite Forall_forall in IV; apply IV, (at_ix_In _ _ HY)).
  assert (Rx := at_ix_range _ _ HX). assert (Ry := at_ix_range _ _ HY). destruct Ia as [Wa Na] eqn:EA, Ib as [Wb Nb] eqn:EB. clear EA EB.
  unfold end_coord, src_coord in HC. rewrite HE, HX, HY in HC. destruct (Z.ltb_spec i (shape_size s)) as [LI|LI].
  - assert (EP : P = pos (vertex_of_coord (unravel s i))). { destruct IX as [[_ E]|(j & v & J1 & J2 & ->)]; auto. symmetry. apply (@grid_pos D s d j v i G J1 J2 LI). }
    split.
    + intros t' ON _. apply Some_inj in HC. rewrite <- HC. destruct (Z.eqb_spec (-1) x); [lia|]. destruct (Z.eqb_spec (-1) y); [lia|]. apply (@c77_vertices D va vb false false (CV (vertex_of_coord (unravel s i))) t'); auto; try discriminate.
      * apply grid_wf; auto.
      * intros k Hk. cbn [cr_vertex]. rewrite <- EP. apply ON; auto.
    + intros e v j SE. exfalso. unfold slot in SE. destruct (Z.ltb_spec (i - shape_size s) 0); [discriminate|lia].
  - destruct (slot (slots s d) (i - shape_size s)) as [c|] eqn:SC; [|discriminate]. assert (K : nth_error (slots s d) (Z.to_nat (i - shape_size s)) = Some (Some c)).
    { unfold slot in SC. destruct (Z.ltb_spec (i - shape_size s) 0); [discriminate|]. destruct (nth_error (slots s d) (Z.to_nat (i - shape_size s))) as [o|]; congruence. }
    destruct (SL (Z.to_nat (i - shape_size s))) as (j & src & v & J1 & J2 & J3 & J4 & _); [apply nth_error_Some; congruence|]. replace (shape_size s + Z.of_nat (Z.to_nat (i - shape_size s))) with i in * by lia. rewrite K in J4.
    assert (EC : c = (src, v, i)) by congruence. subst c. cbn [gc_src gc_v fst snd] in HC.
    assert (EP : P = pos v). { destruct IX as [[E _]|(j' & v' & J1' & J2' & ->)]; [lia|]. apply (@same_index_pos D s d j' j v' v i G J1' J2 J2' J3). }
    assert (SV := @sources_vertex d j src v J1 J2). assert (GC : good_crossing D s v) by (assert (X := gd_good G); rewrite Forall_forall in X; apply X; eapply nth_error_In; eauto). destruct GC as (Wv & _). split.
    + intros t' ON NS. apply Some_inj in HC. rewrite <- HC. assert (ON' : forall k, (k < D)%nat -> qat (pos v) k = on_segment va vb t' k) by (intros k Hk; rewrite <- EP; apply ON; auto). destruct src as [q|e|q].
      * apply (@c77_vertices D va vb (q =? x) (q =? y) (CV v) t'); auto; try discriminate; cbn [cr_vertex]; intros Q; apply Z.eqb_eq in Q; subst q; congruence.
      * destruct (NS e v i eq_refl).
      * destruct SV as [_ ->]. apply (@c77_vertices D va vb false false (CT q) t'); auto; discriminate.
    + intros e v0 j0 SE EI. apply Some_inj in SE. apply pair_equal_spec in SE as [SE _]. apply pair_equal_spec in SE as [-> _]. destruct SV as [SV ->]. cbn [get_edge_coord] in HC. apply Some_inj in HC.
      apply in_concat in SV as (l & H1 & H2). destruct (bm_ei B l H1) as (p' & a' & b' & va' & vb' & Q1 & Q2 & Q3 & ->).
      destruct (@c74_points D grid va' vb' p' e) as (R1 & R2 & R3 & R4 & R5 & R6 & R7 & _); auto; try (rewrite Forall_forall in IV; apply IV; eapply at_ix_In; eauto).
      assert (p' = p) by congruence. subst p'. assert (EQ : (a', b') = (x, y)) by congruence. apply pair_equal_spec in EQ as [-> ->]. assert (va' = va) by congruence. assert (vb' = vb) by congruence. subst va' vb'. rewrite <- HC. split; auto. split; auto.
      intros k Hk. rewrite EP. apply R7. auto.
Qed.
(** REFUTED where two input edges meet on a grid line: the pieces of the first report the parameter on the second.  The edges (1/2,1/2)-(3/2,1/2) and (3/4,1/4)-(3/2,1) meet in (1,1/2), half way along the first; 1/3 is reported. *)
Definition meet_V : list vertex := map from_vertex [[qq 1 2; qq 1 2]; [qq 3 2; qq 1 2]; [qq 3 4; qq 1 4]; [qq 3 2; 1%Qc]].
Definition meet : bdata := mkBD meet_V [(0, 1); (2, 3)] []
  [bake_edge (Some [5; 5]) (nth 0 meet_V (mkVertex [] [] [])) (nth 1 meet_V (mkVertex [] [] [])) 0; bake_edge (Some [5; 5]) (nth 2 meet_V (mkVertex [] [] [])) (nth 3 meet_V (mkVertex [] [] [])) 1] [].
Lemma meet_baked : baked_mesh 2 [5; 5] (Some [5; 5]) meet.
Proof.
  constructor.
  - repeat constructor.
  - apply Forall_forall. intros v Hv. apply goodb_ok. revert v Hv. apply forallb_forall. vm_compute. reflexivity.
  - repeat constructor; cbn; lia.
  - constructor.
  - intros l [<-|[<-|[]]]; [exists 0, 0, 1|exists 1, 2, 3]; do 2 eexists; repeat split; reflexivity.
  - intros l t [].
Qed.
Lemma map_this_inj : forall l l' : list Qc, map this l = map this l' -> l = l'.
Proof. induction l as [|a l IH]; intros [|b l'] Q; auto; try discriminate. cbn in Q. f_equal; [apply Qc_is_canon; assert (Q' : this a = this b) by congruence; rewrite Q'; reflexivity|apply IH; congruence]. Qed.
Theorem c118_other_edge_refuted : exists D s grid d p x y va vb i t P t', baked_mesh D s grid d /\ length s = D /\ Forall (input_vertex D) (bd_V d) /\
  at_ix (bd_E d) p = Some (x, y) /\ at_ix (bd_V d) x = Some va /\ at_ix (bd_V d) y = Some vb /\ pos va <> pos vb /\
  end_coord s d (slots s d) p i = Some t /\ index_at s d i P /\ on_edge D va vb t' P /\ t = Q2Qc (1 # 3) /\ t' = Q2Qc (1 # 2).
Proof.
  assert (X : match nth_error (source_vertices meet) 4, nth_error (crossing_ixs [5; 5] meet) 4 with Some v, Some i => map this (pos v) = [1; 1#2]%Q /\ i = 29 | _, _ => False end) by (vm_compute; split; reflexivity).
  destruct (nth_error (source_vertices meet) 4) as [v|] eqn:E1; [|destruct X]. destruct (nth_error (crossing_ixs [5; 5] meet) 4) as [i|] eqn:E2; [|destruct X]. destruct X as [X1 ->].
  assert (Y : match end_coord [5; 5] meet (slots [5; 5] meet) 0 29 with Some t => this t = (1 # 3)%Q | None => False end) by (vm_compute; reflexivity).
  destruct (end_coord [5; 5] meet (slots [5; 5] meet) 0 29) as [t|] eqn:E3; [|destruct Y].
  exists 2%nat, [5; 5], (Some [5; 5]), meet, 0, 0, 1, (nth 0 meet_V (mkVertex [] [] [])), (nth 1 meet_V (mkVertex [] [] [])), 29, t, (pos v), (Q2Qc (1 # 2)). split; [exact meet_baked|]. split; auto.
  split; [|split; [reflexivity|split; [reflexivity|split; [reflexivity|split; [|split; [exact E3|split; [right; exists 4%nat, v; auto|split; [|split; [apply Qc_is_canon; rewrite Y; reflexivity|reflexivity]]]]]]]]].
  - apply Forall_forall. intros w Hw. assert (GC : good_crossing 2 [5; 5] w). { assert (Z := bm_good meet_baked). rewrite Forall_forall in Z. apply Z. unfold source_vertices. apply in_or_app. auto. } split; apply GC.
  - intros F. apply (f_equal (map this)) in F. vm_compute in F. discriminate.
  - intros k Hk. unfold qat. assert (PV : pos v = [Q2Qc 1; Q2Qc (1 # 2)]).
    { apply map_this_inj. rewrite X1. reflexivity. }
    rewrite PV. destruct k as [|[|k]]; [| |lia]; apply Qc_is_canon; vm_compute; reflexivity.
Qed.
Example c118_sample : exists t, end_coord [5; 5] soup (slots [5; 5] soup) 0 28 = Some t /\ this t = (1 # 2)%Q /\ generate_edges2 (map pos (bd_V soup)) (bd_E soup) [([None; Some 1], (25, 28), 0)] [([Some 1; None], (6, 28))] <> None.
Proof.
  assert (Y : match end_coord [5; 5] soup (slots [5; 5] soup) 0 28 with Some t => this t = (1 # 2)%Q | None => False end) by (vm_compute; reflexivity).
  destruct (end_coord [5; 5] soup (slots [5; 5] soup) 0 28) as [t|]; [|destruct Y]. exists t. split; auto. split; auto. unfold generate_edges2. vm_compute. discriminate.
Qed.
