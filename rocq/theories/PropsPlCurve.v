(** C47: writing a curve and reading it back. *)
From Verif Require Import Base Num AdaptiveGrid PlCurve.
Local Open Scope Z_scope.

(** *** specification *)
(** the number format: integers survive, doubles are read back as [rnd x] (iostreams print 6 significant digits), keywords are recognised *)
Record fmt_ok (tok : Type) (fm : numfmt tok) (rnd : Qc -> Qc) : Prop := {
  fo_int : forall z, stoi fm (put_int fm z) = Some z;
  fo_dbl : forall x, stod fm (put_dbl fm x) = Some (rnd x);
  fo_v : is_vertices fm (kw_vertices fm) = true;
  fo_e : is_edges fm (kw_edges fm) = true;
  fo_ve : is_vertices fm (kw_edges fm) = false }.
(** a column of two indices stands for an edge without element ids *)
Definition pad (e : list Z) : option edge4 := match e with [a; b] => Some (a, b, -1, -1) | [a; b; c; d] => Some (a, b, c, d) | _ => None end.
(** what the fall-through leaves behind for a vertex row: its coordinates read as an edge *)
Definition ghost (tok : Type) (fm : numfmt tok) (v : vtx) : edge4 :=
  match stoi fm (put_dbl fm (fst v)), stoi fm (put_dbl fm (snd v)) with Some a, Some b => (a, b, -1, -1) | _, _ => (-1, -1, -1, -1) end.

Lemma zrange_S s n : zrange s (S n) = s :: zrange (s + 1) n.
Proof. unfold zrange. cbn [seq map]. rewrite <- seq_shift, map_map. f_equal; [lia|]. apply map_ext. intros k. lia. Qed.
Lemma find_set (V : Type) (m : list (Z * V)) k k' v : ssorted Z.compare (keys m) -> map_find Z.compare k (map_set Z.compare k' v m) = if k =? k' then Some v else map_find Z.compare k m.
Proof.
  intros S. rewrite (map_find_set Zcompare_total) by auto. destruct (Z.compare_spec k k') as [->|H|H]; [rewrite Z.eqb_refl; auto| |].
  - rewrite (proj2 (Z.eqb_neq k k')) by lia. auto.
  - rewrite (proj2 (Z.eqb_neq k k')) by lia. auto.
Qed.
Definition znth (A : Type) (l : list A) (i : Z) : option A := if 0 <=? i then nth_error l (Z.to_nat i) else None.
Arguments znth {A} l i.
Lemma znth_cons (A : Type) (x : A) l i : znth (x :: l) i = if i =? 0 then Some x else znth l (i - 1).
Proof.
  unfold znth. destruct (Z.eqb_spec i 0) as [->|N]; auto. destruct (Z.leb_spec 0 i), (Z.leb_spec 0 (i - 1)); try lia; auto. replace (Z.to_nat i) with (S (Z.to_nat (i - 1))) by lia. auto.
Qed.
Lemma znth_Some (A : Type) (l : list A) i x : znth l i = Some x -> 0 <= i < Z.of_nat (length l).
Proof. unfold znth. destruct (Z.leb_spec 0 i); [|discriminate]. intros E. assert (Z.to_nat i < length l)%nat by (apply nth_error_Some; congruence). lia. Qed.
Lemma znth_None (A : Type) (l : list A) i : 0 <= i < Z.of_nat (length l) -> znth l i <> None.
Proof. unfold znth. destruct (Z.leb_spec 0 i); [|lia]. intros H1. apply nth_error_Some. lia. Qed.

Section P.
  Variable tok : Type.
  Variable fm : numfmt tok.
  Variable rnd : Qc -> Qc.
  Hypothesis OK : fmt_ok tok fm rnd.
  Definition rndv (v : vtx) : vtx := (rnd (fst v), rnd (snd v)).
  Definition ghost_opt (v : vtx) : option edge4 := match stoi fm (put_dbl fm (fst v)), stoi fm (put_dbl fm (snd v)) with Some a, Some b => Some (a, b, -1, -1) | _, _ => None end.
  Lemma read_vertices V : forall s vs es rest, ssorted Z.compare (keys vs) -> ssorted Z.compare (keys es) -> exists vs' es',
    read_lines fm (map (vrow fm) (combine (zrange s (length V)) V) ++ rest) (mkRd Vertices vs es) = read_lines fm rest (mkRd Vertices vs' es') /\
    ssorted Z.compare (keys vs') /\ ssorted Z.compare (keys es') /\
    (forall k, map_find Z.compare k vs' = match znth V (k - s) with Some v => Some (rndv v) | None => map_find Z.compare k vs end) /\
    (forall k, map_find Z.compare k es' = match znth V (k - s) with Some v => match ghost_opt v with Some g => Some g | None => map_find Z.compare k es end | None => map_find Z.compare k es end).
  Proof.
    induction V as [|v V IH]; intros s vs es rest Sv Se.
    - exists vs, es. cbn [length zrange seq map combine app]. repeat split; auto; intros k; unfold znth; destruct (0 <=? k - s); auto; destruct (Z.to_nat (k - s)); auto.
    - cbn [length]. rewrite zrange_S. cbn [combine map app read_lines]. unfold vrow at 1. cbn [read_line rd_state process_vertex process_edge fst snd rd_vs rd_es].
      rewrite (fo_int _ _ _ OK), !(fo_dbl _ _ _ OK). fold (rndv v).
      assert (Sv' : ssorted Z.compare (keys (map_set Z.compare s (rnd (fst v), rnd (snd v)) vs))) by (apply (map_set_sorted Zcompare_total); auto).
      set (es1 := match ghost_opt v with Some g => map_set Z.compare s g es | None => es end).
      assert (Se' : ssorted Z.compare (keys es1)) by (unfold es1; destruct (ghost_opt v); auto; apply (map_set_sorted Zcompare_total); auto).
      destruct (IH (s + 1) _ es1 rest Sv' Se') as (vs' & es' & R & S1 & S2 & F1 & F2). exists vs', es'. split; [|split; [auto|split; [auto|split]]].
      + rewrite <- R. unfold es1, ghost_opt. destruct (stoi fm (put_dbl fm (fst v))) as [a|]; auto. destruct (stoi fm (put_dbl fm (snd v))) as [b|]; auto.
      + intros k. rewrite F1, znth_cons, find_set by auto. replace (k - (s + 1)) with (k - s - 1) by lia. destruct (Z.eqb_spec (k - s) 0) as [E|E].
        * rewrite (proj2 (Z.eqb_eq k s)) by lia. destruct (znth V (k - s - 1)) eqn:Z1; auto. apply znth_Some in Z1. lia.
        * rewrite (proj2 (Z.eqb_neq k s)) by lia. auto.
      + intros k. rewrite F2, znth_cons. replace (k - (s + 1)) with (k - s - 1) by lia. assert (Fe : map_find Z.compare k es1 = if k =? s then match ghost_opt v with Some g => Some g | None => map_find Z.compare k es end else map_find Z.compare k es).
        { unfold es1. destruct (ghost_opt v); [apply find_set; auto|destruct (k =? s); auto]. }
        rewrite Fe. destruct (Z.eqb_spec (k - s) 0) as [E|E].
        * rewrite (proj2 (Z.eqb_eq k s)) by lia. destruct (znth V (k - s - 1)) eqn:Z1; auto. apply znth_Some in Z1. lia.
        * rewrite (proj2 (Z.eqb_neq k s)) by lia. auto.
  Qed.
  Lemma read_edges E : forall s vs es E4, Forall2 (fun e e4 => pad e = Some e4) E E4 -> ssorted Z.compare (keys es) -> exists es',
    read_lines fm (map (erow fm) (combine (zrange s (length E)) E)) (mkRd Edges vs es) = mkRd Edges vs es' /\ ssorted Z.compare (keys es') /\
    (forall k, map_find Z.compare k es' = match znth E4 (k - s) with Some e => Some e | None => map_find Z.compare k es end).
  Proof.
    induction E as [|e E IH]; intros s vs es E4 F Se; inversion F as [|? e4 ? E4' P F']; subst.
    - exists es. cbn [length zrange seq map combine]. repeat split; auto. intros k. unfold znth. destruct (0 <=? k - s); auto. destruct (Z.to_nat (k - s)); auto.
    - cbn [length]. rewrite zrange_S. cbn [combine map read_lines]. assert (Se' : ssorted Z.compare (keys (map_set Z.compare s e4 es))) by (apply (map_set_sorted Zcompare_total); auto).
      assert (L : read_line fm (erow fm (s, e)) (mkRd Edges vs es) = Some (mkRd Edges vs (map_set Z.compare s e4 es))).
      { unfold erow. cbn [fst snd]. destruct e as [|a [|b [|c [|d [|]]]]]; cbn in P; try discriminate; injection P as <-; cbn [map read_line rd_state process_edge rd_vs rd_es]; rewrite !(fo_int _ _ _ OK); auto. }
      rewrite L. destruct (IH (s + 1) vs _ E4' F' Se') as (es' & R & S1 & F1). exists es'. split; [exact R|]. split; auto. intros k. rewrite F1, znth_cons, find_set by auto. replace (k - (s + 1)) with (k - s - 1) by lia. destruct (Z.eqb_spec (k - s) 0) as [E0|E0].
      + rewrite (proj2 (Z.eqb_eq k s)) by lia. destruct (znth E4' (k - s - 1)) eqn:Z1; auto. apply znth_Some in Z1. lia.
      + rewrite (proj2 (Z.eqb_neq k s)) by lia. auto.
  Qed.
  Lemma maxkey_spec (A : Type) (m : list (Z * A)) : ssorted Z.compare (keys m) -> match maxkey m with Some k => In k (keys m) /\ forall j, In j (keys m) -> j <= k | None => m = [] end.
  Proof.
    intros S. unfold maxkey. destruct (rev m) as [|[k v] r] eqn:E.
    - rewrite <- (rev_involutive m), E. auto.
    - assert (Em : m = rev r ++ [(k, v)]) by (rewrite <- (rev_involutive m), E; auto). subst m. unfold keys in *. rewrite map_app in *. cbn [map fst] in *. split; [apply in_or_app; cbn; auto|]. intros j Hj. apply in_app_or in Hj as [Hj|[<-|[]]]; [|lia].
      revert Hj S. generalize (map fst (rev r)) as l. induction l as [|x l IH]; intros Hj S; [destruct Hj|]. inversion S as [|? ? F S']; subst. destruct Hj as [<-|Hj]; auto. rewrite Forall_forall in F. assert (L := F k). change (In k (l ++ [k]) -> x < k) in L. assert (x < k) by (apply L, in_or_app; cbn; auto). lia.
  Qed.
  Lemma In_keys (A : Type) (m : list (Z * A)) k : ssorted Z.compare (keys m) -> (In k (keys m) <-> exists v, map_find Z.compare k m = Some v).
  Proof.
    intros S. destruct (map_find Z.compare k m) as [v|] eqn:E.
    - split; eauto. intros _. apply (map_find_Some Zcompare_total) in E; auto. apply in_map_iff. exists (k, v); auto.
    - apply (map_find_None Zcompare_total) in E; auto. split; [contradiction|intros (? & [=])].
  Qed.
  Lemma fill_spec (A : Type) (dflt : A) n m (l : list A) : ssorted Z.compare (keys m) -> Z.of_nat (length l) = n -> (forall k, In k (keys m) -> 0 <= k < n) ->
    (forall k, 0 <= k < n -> match map_find Z.compare k m with Some v => v | None => dflt end = nth (Z.to_nat k) l dflt) -> fill dflt n m = Some l.
  Proof.
    intros S L K H. unfold fill. assert (B : forallb (fun '(k, _) => (0 <=? k) && (k <? n)) m = true).
    { apply forallb_forall. intros (k & v) Hk. assert (0 <= k < n) by (apply K, in_map_iff; exists (k, v); auto). lia. }
    rewrite B. f_equal. apply nth_error_ext. intros i. rewrite nth_error_map. subst n. rewrite Nat2Z.id. destruct (Nat.lt_ge_cases i (length l)) as [Hi|Hi].
    - unfold zrange. rewrite nth_error_map. rewrite (nth_error_nth' _ 0%nat) by (rewrite seq_length; lia). rewrite seq_nth by lia. cbn [option_map]. rewrite H by lia. rewrite (nth_error_nth' l dflt) by lia. do 2 f_equal. lia.
    - assert (N : nth_error (zrange 0 (length l)) i = None) by (apply nth_error_None; rewrite zrange_length; auto). rewrite N. symmetry. apply nth_error_None. auto.
  Qed.
  Lemma write_read V E E4 : Forall2 (fun e e4 => pad e = Some e4) E E4 -> exists vs es,
    read_lines fm (write_plcurve fm V E) (mkRd Init [] []) = mkRd Edges vs es /\ ssorted Z.compare (keys vs) /\ ssorted Z.compare (keys es) /\
    (forall k, map_find Z.compare k vs = option_map rndv (znth V k)) /\
    (forall k, map_find Z.compare k es = match znth E4 k with Some e => Some e | None => match znth V k with Some v => ghost_opt v | None => None end end).
  Proof.
    intros F. unfold write_plcurve. cbn [read_lines read_line]. rewrite (fo_v _ _ _ OK). cbn [rd_vs rd_es].
    assert (S0 : forall A : Type, ssorted Z.compare (keys (@nil (Z * A)))) by (intros; constructor).
    destruct (read_vertices V 0 [] [] ([[]; [kw_edges fm]] ++ map (erow fm) (combine (zrange 0 (length E)) E)) (S0 _) (S0 _)) as (vs & es & R & S1 & S2 & F1 & F2).
    rewrite R. cbn [app read_lines read_line]. rewrite (fo_ve _ _ _ OK), (fo_e _ _ _ OK). cbn [rd_vs rd_es].
    destruct (read_edges E 0 vs es E4 F S2) as (es' & R' & S3 & F3). exists vs, es'. split; [exact R'|]. split; auto. split; auto. split.
    - intros k. rewrite F1, Z.sub_0_r. destruct (znth V k); auto.
    - intros k. rewrite F3, F2, Z.sub_0_r. destruct (znth E4 k); auto. destruct (znth V k) as [v|]; auto. destruct (ghost_opt v); auto.
  Qed.
  Lemma Forall2_len (A B : Type) (R : A -> B -> Prop) l m : Forall2 R l m -> length l = length m.
  Proof. induction 1; cbn; auto. Qed.
  Lemma read_write V E E4 : Forall2 (fun e e4 => pad e = Some e4) E E4 -> E <> [] -> (length E <= length V)%nat ->
    read_plcurve fm (write_plcurve fm V E) = Some (map rndv V, E4 ++ map (ghost tok fm) (skipn (length E) V)).
  Proof.
    intros F NE LE. destruct (write_read V E E4 F) as (vs & es & R & S1 & S2 & F1 & F2). unfold read_plcurve. rewrite R. cbn [rd_vs rd_es]. assert (L4 := Forall2_len _ _ _ _ _ F). assert (NE' : (0 < length E)%nat) by (destruct E; [congruence|cbn; lia]).
    assert (Kv : forall k, In k (keys vs) <-> 0 <= k < Z.of_nat (length V)).
    { intros k. rewrite In_keys by auto. rewrite F1. split; [intros (v & Hv); destruct (znth V k) eqn:Z1; [|discriminate]; eapply znth_Some; eauto|]. intros H. apply znth_None in H. destruct (znth V k); [cbn; eauto|congruence]. }
    assert (Ke : forall k, In k (keys es) -> 0 <= k < Z.of_nat (length V)).
    { intros k. rewrite In_keys by auto. rewrite F2. intros (v & Hv). destruct (znth E4 k) eqn:Z1; [apply znth_Some in Z1; lia|]. destruct (znth V k) eqn:Z2; [apply znth_Some in Z2; lia|discriminate]. }
    assert (Ke0 : In 0 (keys es)). { apply In_keys; auto. rewrite F2. assert (znth E4 0 <> None) by (apply znth_None; lia). destruct (znth E4 0); [eauto|congruence]. }
    assert (Mv := maxkey_spec _ vs S1). destruct (maxkey vs) as [mv|] eqn:EM. 2:{ exfalso. assert (In 0 (keys vs)) by (apply Kv; lia). rewrite Mv in H. destruct H. }
    assert (Me := maxkey_spec _ es S2). destruct (maxkey es) as [me|] eqn:EMe. 2:{ exfalso. rewrite Me in Ke0. destruct Ke0. }
    destruct Mv as [Mv1 Mv2]. apply Kv in Mv1. assert (Emv : mv + 1 = Z.of_nat (length V)). { assert (Z.of_nat (length V) - 1 <= mv) by (apply Mv2, Kv; lia). lia. }
    rewrite Emv. rewrite (fill_spec _ _ _ _ (map rndv V)); [|auto|rewrite map_length; auto|intros; apply Kv; auto|].
    2:{ intros k Hk. rewrite F1. assert (N := znth_None _ V k Hk). unfold znth in *. rewrite (proj2 (Z.leb_le 0 k)) in * by lia. destruct (nth_error V (Z.to_nat k)) as [v|] eqn:Ev; [|congruence]. cbn [option_map]. symmetry. apply nth_error_nth. rewrite nth_error_map, Ev. auto. }
    rewrite (fill_spec _ _ _ _ (E4 ++ map (ghost tok fm) (skipn (length E) V))); auto.
    - rewrite app_length, map_length, skipn_length. lia.
    - intros k Hk. rewrite F2. unfold znth. rewrite (proj2 (Z.leb_le 0 k)) by lia. destruct (Nat.lt_ge_cases (Z.to_nat k) (length E4)) as [H|H].
      + rewrite app_nth1 by auto. destruct (nth_error E4 (Z.to_nat k)) as [e|] eqn:Ee; [symmetry; apply nth_error_nth; auto|]. apply nth_error_None in Ee. lia.
      + rewrite app_nth2 by auto. rewrite (proj2 (nth_error_None E4 (Z.to_nat k))) by auto. destruct (nth_error V (Z.to_nat k)) as [v|] eqn:Ev; [|apply nth_error_None in Ev; lia].
        assert (Es : nth_error (skipn (length E) V) (Z.to_nat k - length E4) = Some v).
        { rewrite <- Ev. rewrite <- (firstn_skipn (length E) V) at 2. rewrite nth_error_app2; rewrite firstn_length; [f_equal; lia|lia]. }
        symmetry. apply nth_error_nth. rewrite nth_error_map, Es. cbn. unfold ghost, ghost_opt. destruct (stoi fm (put_dbl fm (fst v))); auto. destruct (stoi fm (put_dbl fm (snd v))); auto.
  Qed.
  Lemma read_overflow V E E4 : Forall2 (fun e e4 => pad e = Some e4) E E4 -> (length V < length E)%nat -> read_plcurve fm (write_plcurve fm V E) = None.
  Proof.
    intros F LE. destruct (write_read V E E4 F) as (vs & es & R & S1 & S2 & F1 & F2). unfold read_plcurve. rewrite R. cbn [rd_vs rd_es]. assert (L4 := Forall2_len _ _ _ _ _ F).
    destruct (maxkey vs) as [mv|] eqn:EM; auto. destruct (maxkey es) as [me|]; auto. assert (Mv := maxkey_spec _ vs S1). rewrite EM in Mv. destruct Mv as [Mv _]. apply In_keys in Mv as (v & Mv); auto. rewrite F1 in Mv. destruct (znth V mv) eqn:Z1; [|discriminate]. apply znth_Some in Z1.
    assert (FN : @fill edge4 (-1, -1, -1, -1) (mv + 1) es = None).
    { unfold fill. match goal with |- (if ?b then _ else _) = _ => destruct b eqn:B; auto end. exfalso. rewrite forallb_forall in B.
      assert (N : znth E4 (Z.of_nat (length V)) <> None) by (apply znth_None; lia). destruct (znth E4 (Z.of_nat (length V))) as [e|] eqn:Ee; [|congruence]. assert (G : map_find Z.compare (Z.of_nat (length V)) es = Some e) by (rewrite F2, Ee; auto). apply (map_find_Some Zcompare_total) in G; auto. apply B in G. lia. }
    rewrite FN. destruct (fill _ _ vs); auto.
  Qed.
End P.

(** C47 *)
(** with at most as many edges as vertices, reading returns all vertices (as printed) and all edges, followed by one spurious column per missing edge *)
Theorem c47_read_back_partial : forall tok fm rnd V E E4, fmt_ok tok fm rnd -> Forall2 (fun e e4 => pad e = Some e4) E E4 -> E <> [] -> (length E <= length V)%nat ->
  read_plcurve fm (write_plcurve fm V E) = Some (map (fun v => (rnd (fst v), rnd (snd v))) V, E4 ++ map (ghost tok fm) (skipn (length E) V)).
Proof. intros tok fm rnd V E E4 OK F NE LE. exact (read_write tok fm rnd OK V E E4 F NE LE). Qed.
(** a curve with as many edges as vertices (e.g. a union of closed loops) round trips *)
Theorem c47_closed_round_trip : forall tok fm rnd V E E4, fmt_ok tok fm rnd -> Forall2 (fun e e4 => pad e = Some e4) E E4 -> E <> [] -> length E = length V ->
  (forall v, In v V -> rnd (fst v) = fst v /\ rnd (snd v) = snd v) -> read_plcurve fm (write_plcurve fm V E) = Some (V, E4).
Proof.
  intros tok fm rnd V E E4 OK F NE LE HV. rewrite (c47_read_back_partial tok fm rnd V E E4 OK F NE (Nat.eq_le_incl _ _ LE)). rewrite LE, skipn_all. cbn [map]. rewrite app_nil_r. do 2 f_equal. rewrite <- (map_id V) at 2. apply map_ext_in. intros v Hv. destruct (HV v Hv) as [-> ->]. destruct v; auto.
Qed.
(** never for an open curve: the matrix of edges has one column per vertex *)
Theorem c47_open_curve_refuted : forall tok fm rnd V E E4, fmt_ok tok fm rnd -> Forall2 (fun e e4 => pad e = Some e4) E E4 -> E <> [] -> (length E < length V)%nat ->
  forall V', read_plcurve fm (write_plcurve fm V E) <> Some (V', E4).
Proof.
  intros tok fm rnd V E E4 OK F NE LE V' H. rewrite (c47_read_back_partial tok fm rnd V E E4 OK F NE (Nat.lt_le_incl _ _ LE)) in H.
  assert (L : length (E4 ++ map (ghost tok fm) (skipn (length E) V)) = length E4) by congruence. rewrite app_length, map_length, skipn_length in L. lia.
Qed.
(** with more edges than vertices the reader writes out of bounds *)
Theorem c47_more_edges_refuted : forall tok fm rnd V E E4, fmt_ok tok fm rnd -> Forall2 (fun e e4 => pad e = Some e4) E E4 -> (length V < length E)%nat ->
  read_plcurve fm (write_plcurve fm V E) = None.
Proof. intros tok fm rnd V E E4 OK F LE. exact (read_overflow tok fm rnd OK V E E4 F LE). Qed.
(** Example: a number format with exact integers and coordinates, a triangle, and the same triangle with one edge removed *)
Inductive xtok := XI (z : Z) | XD (q : Qc) | XV | XE.
Definition xfmt : numfmt xtok := mkFmt XI XD (fun t => match t with XI z => Some z | XD q => Some (qfloor q) | _ => None end)
  (fun t => match t with XD q => Some q | XI z => Some (Z2Qc z) | _ => None end) XV XE (fun t => match t with XV => true | _ => false end) (fun t => match t with XE => true | _ => false end) (fun _ => false).
Example c47_fmt : fmt_ok xtok xfmt (fun q => q).
Proof. constructor; auto. Qed.
Example c47_triangle : let V := [(0, 0); (1, 0); (0, 1)]%Qc in
  read_plcurve xfmt (write_plcurve xfmt V [[0; 1]; [1; 2]; [2; 0]]) = Some (V, [(0, 1, -1, -1); (1, 2, -1, -1); (2, 0, -1, -1)]) /\
  option_map snd (read_plcurve xfmt (write_plcurve xfmt V [[0; 1; 5; 6]; [1; 2; 5; 6]])) = Some [(0, 1, 5, 6); (1, 2, 5, 6); (0, 1, -1, -1)].
Proof.
  intros V. split; [|vm_compute; reflexivity]. apply (c47_closed_round_trip xtok xfmt (fun q => q)); [apply c47_fmt|repeat constructor|discriminate|reflexivity|auto].
Qed.
