(** C113, C114: the barycentric map, the cut vertices and the edge sets of CutData. *)
From Coq Require Import Permutation Sorted Relations.
From Verif Require Import Base Num CoordMask Vertex VertexSpec VertexProofs VertexTypes Grid Crossings CrossingsSpec CrossingsProofs EdgeBake CutEdges Sparse
  PropsConstruct ThresholdProofs EdgeBakeProofs PropsEdgeBake PropsCutEdges TriBake PropsTri BaryMap.
Set Implicit Arguments.
Local Open Scope Z_scope.
Local Arguments Qcplus : simpl never. Local Arguments Qcmult : simpl never. Local Arguments Qcopp : simpl never. Local Arguments Qcminus : simpl never.
Local Arguments Qcdiv : simpl never. Local Arguments Qcinv : simpl never. Local Arguments Q2Qc : simpl never.

(** ** C113 *)
(** the value at a crossing of a function given at the mesh vertices: linear along edges, linear in triangles *)
Definition value (d : bdata) (x : Z -> Qc) (src : source) : Qc :=
  match src with
  | SVtx i => x i
  | SEdge e => match at_ix (bd_E d) (ei_index e) with Some (a, b) => (1 - ei_coord e) * x a + ei_coord e * x b | None => 0 end
  | STri t => match at_ix (bd_F d) (ti_index t) with Some (a, b, c) => qat (ti_bary t) 0 * x a + qat (ti_bary t) 1 * x b + qat (ti_bary t) 2 * x c | None => 0 end
  end%Qc.
(** the crossings that carry vertex index r *)
Definition carriers (s : list Z) (d : bdata) (r : Z) : list (source * Z) := filter (fun c => snd c =? r) (crossings s d).
(** a mesh whose indices are in range, with the crossings CutData::bake finds *)
Record baked_mesh (D : nat) (s : list Z) (grid : option (list Z)) (d : bdata) : Prop := {
  bm_shape : pos_shape s;
  bm_good : Forall (good_crossing D s) (source_vertices d);
  bm_E : Forall (fun '(a, b) => 0 <= a < nV d /\ 0 <= b < nV d) (bd_E d);
  bm_F : Forall (fun '(a, b, c) => 0 <= a < nV d /\ 0 <= b < nV d /\ 0 <= c < nV d) (bd_F d);
  bm_ei : forall l, In l (bd_ei d) -> exists i a b va vb, at_ix (bd_E d) i = Some (a, b) /\ at_ix (bd_V d) a = Some va /\ at_ix (bd_V d) b = Some vb /\ l = bake_edge grid va vb i;
  bm_ti : forall l t, In l (bd_ti d) -> In t l -> (exists f, at_ix (bd_F d) (ti_index t) = Some f) /\ valid_bary (ti_bary t)
}.

Lemma crossings_ixs_len s d : length (crossing_ixs s d) = length (source_vertices d).
Proof.
  unfold crossing_ixs, compute_crossings. generalize (source_vertices d), (@nil (vkey * Z)), (shape_size s). induction l as [|v l IH]; intros m c; auto. cbn [fuse_loop].
  destruct (is_grid_vertex v).
  - assert (H := IH (map_set vkey_cmp (vkey_of v) (ravel s (v_coord v)) m) c). destruct (fuse_loop s _ c l). cbn in *. congruence.
  - destruct (map_find vkey_cmp (vkey_of v) m).
    + assert (H := IH m c). destruct (fuse_loop s m c l). cbn in *. congruence.
    + assert (H := IH (map_set vkey_cmp (vkey_of v) c m) (c + 1)). destruct (fuse_loop s _ (c + 1) l). cbn in *. congruence.
Qed.
Lemma sources_len d : length (sources d) = length (source_vertices d).
Proof. unfold sources, source_vertices. rewrite !app_length, !map_length. unfold zseq, nV. rewrite map_length, seq_length, Nat2Z.id. auto. Qed.
Lemma at_ix_range (A : Type) (l : list A) i a : at_ix l i = Some a -> 0 <= i < Z.of_nat (length l).
Proof. unfold at_ix. destruct (Z.ltb_spec i 0); [discriminate|]. intros E. assert (Z.to_nat i < length l)%nat by (apply nth_error_Some; congruence). lia. Qed.
Lemma at_ix_In (A : Type) (l : list A) i a : at_ix l i = Some a -> In a l.
Proof. unfold at_ix. destruct (Z.ltb_spec i 0); [discriminate|]. apply nth_error_In. Qed.
Lemma sources_vertex d k src v : nth_error (sources d) k = Some src -> nth_error (source_vertices d) k = Some v ->
  match src with SVtx i => at_ix (bd_V d) i = Some v | SEdge e => In e (concat (bd_ei d)) /\ v = ei_v e | STri t => In t (concat (bd_ti d)) /\ v = ti_v t end.
Proof.
  unfold sources, source_vertices. set (n := length (bd_V d)). assert (L1 : length (map SVtx (zseq (nV d))) = n).
  { rewrite map_length. unfold zseq, nV. rewrite map_length, seq_length, Nat2Z.id. auto. }
  destruct (Nat.lt_ge_cases k n) as [H|H].
  - rewrite (nth_error_app1 (map SVtx (zseq (nV d)))) by lia. rewrite (nth_error_app1 (bd_V d)) by (fold n; lia). unfold zseq, nV. rewrite Nat2Z.id. fold n. rewrite !nth_error_map.
    destruct (nth_error (seq 0 n) k) as [j|] eqn:E; [|discriminate]. cbn. intros E' Hv. apply (f_equal (fun o => match o with Some q => q | None => SVtx 0 end)) in E'. subst src.
    assert (j = k). { assert (E2 := nth_error_nth (seq 0 n) k 0%nat E). rewrite seq_nth in E2 by auto. lia. } subst j.
    unfold at_ix. destruct (Z.ltb_spec (Z.of_nat k) 0); [lia|]. rewrite Nat2Z.id. auto.
  - rewrite (nth_error_app2 (map SVtx (zseq (nV d)))) by lia. rewrite (nth_error_app2 (bd_V d)) by (fold n; lia). rewrite L1. fold n. generalize (k - n)%nat. clear. intros k.
    destruct (Nat.lt_ge_cases k (length (concat (bd_ei d)))) as [H|H].
    + rewrite !nth_error_app1 by (rewrite map_length; auto). rewrite !nth_error_map. destruct (nth_error (concat (bd_ei d)) k) as [e|] eqn:E; [|discriminate].
      cbn. intros E1 E2. assert (src = SEdge e) by congruence. assert (v = ei_v e) by congruence. subst. split; auto. eapply nth_error_In; eauto.
    + rewrite !nth_error_app2 by (rewrite map_length; auto). rewrite !nth_error_map, !map_length. destruct (nth_error (concat (bd_ti d)) _) as [t|] eqn:E; [|discriminate].
      cbn. intros E1 E2. assert (src = STri t) by congruence. assert (v = ti_v t) by congruence. subst. split; auto. eapply nth_error_In; eauto.
Qed.
Lemma combine_nth (A B : Type) (l : list A) (l' : list B) k a b : nth_error (combine l l') k = Some (a, b) <-> nth_error l k = Some a /\ nth_error l' k = Some b.
Proof.
  revert l' k. induction l as [|x l IH]; intros [|y l'] [|k]; cbn; try (split; [discriminate|intros [? ?]; discriminate]).
  - split; [intros E; split; congruence|intros [? ?]; congruence].
  - apply IH.
Qed.
(** a crossing in the list, with its vertex *)
Lemma crossing_at s d src i : In (src, i) (crossings s d) -> exists k v, nth_error (sources d) k = Some src /\ nth_error (source_vertices d) k = Some v /\ nth_error (crossing_ixs s d) k = Some i.
Proof.
  intros H. apply In_nth_error in H as (k & H). apply combine_nth in H as [H1 H2]. exists k.
  destruct (nth_error_lt _ (source_vertices d) k) as [v Hv]; [rewrite <- sources_len; apply nth_error_Some; congruence|]. eauto.
Qed.
Lemma sequence_some (A : Type) (l : list (option A)) : (forall o, In o l -> o <> None) -> exists r, sequence l = Some r.
Proof.
  induction l as [|o l IH]; intros H; [exists []; auto|]. destruct IH as (r & Hr); [intros; apply H; cbn; auto|]. destruct o as [a|]; [|destruct (H None); cbn; auto].
  exists (a :: r). cbn. rewrite Hr. auto.
Qed.

(** what the rows compute: row r of the map times x is the sum, over the crossings with index r, of the value of x there *)
Theorem c113_rows s d rows cols ts x r : barycentric_map s d = Some (rows, cols, ts) ->
  mulv ts x r = lsum (fun c => value d x (fst c)) (carriers s d r).
Proof.
  unfold barycentric_map, carriers. destruct (sequence _) as [l|] eqn:S; [|discriminate]. intros E. assert (ts = concat l) by congruence. subst ts. clear E rows cols. revert l S.
  induction (crossings s d) as [|[src i] cs IH]; intros l S; cbn [map sequence] in S.
  - assert (l = []) by congruence. subst. reflexivity.
  - destruct (source_triplets d (src, i)) as [t|] eqn:T; [|discriminate]. destruct (sequence (map _ cs)) as [l'|]; [|discriminate]. assert (l = t :: l') by congruence. subst l.
    cbn [concat]. rewrite mulv_app, (IH l' eq_refl). cbn [filter snd].
    assert (X : mulv t x r = if i =? r then value d x src else 0%Qc).
    { unfold source_triplets in T. unfold value. destruct src as [j|e|tr].
      - apply Some_inj in T. subst t. unfold mulv. cbn [lsum t_row t_col t_val fst snd]. destruct (i =? r); ring.
      - destruct (at_ix (bd_E d) (ei_index e)) as [[a b]|]; [|discriminate]. apply Some_inj in T. subst t. unfold mulv. cbn [lsum t_row t_col t_val fst snd]. destruct (i =? r); ring.
      - destruct (at_ix (bd_F d) (ti_index tr)) as [[[a b] c]|]; [|discriminate]. apply Some_inj in T. subst t. unfold mulv. cbn [lsum t_row t_col t_val fst snd]. destruct (i =? r); ring. }
    rewrite X. destruct (i =? r); cbn [lsum fst]; ring.
Qed.
Lemma source_ok D s grid d src : baked_mesh D s grid d -> In src (sources d) ->
  (exists t, source_triplets d (src, 0) = Some t) /\ value d (fun _ => 1%Qc) src = 1%Qc.
Proof.
  intros B H. apply In_nth_error in H as (k & H). destruct (nth_error_lt _ (source_vertices d) k) as [v Hv]; [rewrite <- sources_len; apply nth_error_Some; congruence|].
  assert (X := sources_vertex _ _ H Hv). destruct src as [i|e|t]; cbn [source_triplets value].
  - split; eauto.
  - destruct X as [X _]. apply in_concat in X as (l & Hl & He). destruct (bm_ei B l Hl) as (i & a & b & va & vb & E1 & E2 & E3 & ->).
    assert (G := bm_good B). unfold source_vertices in G. rewrite !Forall_app in G. destruct G as (G & _). rewrite Forall_forall in G.
    assert (Ga := G va (at_ix_In _ _ E2)). assert (Gb := G vb (at_ix_In _ _ E3)). destruct Ga as (Wa & Na & _), Gb as (Wb & Nb & _).
    destruct (@c74_points D grid va vb i e (conj Wa Na) (conj Wb Nb) He) as (_ & _ & EI & _). rewrite EI, E1. split; [eauto|ring].
  - destruct X as [X _]. apply in_concat in X as (l & Hl & Ht). destruct (bm_ti B l t Hl Ht) as (([[a b] c] & E) & (_ & _ & V)). rewrite E. split; [eauto|]. rewrite <- V at 4. ring.
Qed.
Lemma cut_vertex_size_ge s l : shape_size s <= cut_vertex_size s l.
Proof. unfold cut_vertex_size. generalize (shape_size s). induction l as [|a l IH]; intros z; cbn; [lia|]. specialize (IH (Z.max z (a + 1))). lia. Qed.
(** the map of a baked mesh exists; its size; all its entries lie inside; entries are non-negative *)
Theorem c113_shape D s grid d : baked_mesh D s grid d -> exists rows ts, barycentric_map s d = Some (rows, nV d, ts) /\
  snd (compute_crossings s (source_vertices d)) = rows /\ shape_size s <= rows /\
  Forall (fun t => 0 <= t_row t < rows /\ 0 <= t_col t < nV d /\ (0 <= t_val t)%Qc) ts.
Proof.
  intros B. unfold barycentric_map. destruct (@sequence_some _ (map (source_triplets d) (crossings s d))) as (l & S).
  { intros o Ho. apply in_map_iff in Ho as ([src i] & <- & Hc). apply in_combine_l in Hc. destruct (source_ok _ B Hc) as ((t & T) & _).
    unfold source_triplets in *. destruct src as [j|e|tr]; [discriminate| |].
    - destruct (at_ix (bd_E d) (ei_index e)) as [[a b]|]; discriminate.
    - destruct (at_ix (bd_F d) (ti_index tr)) as [[[a b] c]|]; discriminate. }
  rewrite S. do 2 eexists. split; [reflexivity|]. assert (CC : compute_crossings s (source_vertices d) = (crossing_ixs s d, snd (compute_crossings s (source_vertices d)))) by apply surjective_pairing.
  assert (CV := @c14_vertex_count _ _ _ _ _ (bm_good B) CC). split; [symmetry; exact CV|]. split; [apply cut_vertex_size_ge|].
  apply Forall_forall. intros t Ht. apply in_concat in Ht as (tl & Htl & Ht).
  assert (F2 : forall (cs : list (source * Z)) l, sequence (map (source_triplets d) cs) = Some l -> forall tl, In tl l -> exists c, In c cs /\ source_triplets d c = Some tl).
  { induction cs as [|c cs IH]; intros l0 S0 tl0 H0; cbn in S0.
    - assert (l0 = []) by congruence. subst. destruct H0.
    - destruct (source_triplets d c) as [l2|] eqn:T; [|discriminate]. destruct (sequence (map (source_triplets d) cs)) as [l1|] eqn:S1; [|discriminate]. apply Some_inj in S0. subst l0. destruct H0 as [<-|H0].
      + exists c. cbn; auto.
      + destruct (IH l1 eq_refl tl0 H0) as (c' & H1 & H2). exists c'. cbn; auto. }
  destruct (F2 _ _ S tl Htl) as ([src i] & Hc & T). destruct (crossing_at _ _ _ _ Hc) as (k & v & K1 & K2 & K3).
  assert (R : 0 <= i < snd (compute_crossings s (source_vertices d))).
  { destruct (@c14_crossing_indices _ _ _ _ _ (bm_good B) CC) as (_ & _ & A & _). destruct (A k v i K2 K3) as [A1 A2]. destruct (is_grid_vertex v).
    - destruct (A1 eq_refl) as [_ A1']. assert (SZ : shape_size s <= snd (compute_crossings s (source_vertices d))); [|lia].
      rewrite <- CV. apply cut_vertex_size_ge.
    - assert (A2' := A2 eq_refl). assert (SP := shape_size_pos (bm_shape B)). lia. }
  rewrite CV.
  assert (X := sources_vertex _ _ K1 K2). unfold source_triplets in T. destruct src as [j|e|tr].
  - apply Some_inj in T. subst tl. destruct Ht as [<-|[]]. cbn. split; auto. split; [apply at_ix_range in X; exact X|discriminate].
  - destruct X as [X _]. apply in_concat in X as (li & Hl & He). destruct (bm_ei B li Hl) as (i0 & a & b & va & vb & E1 & E2 & E3 & ->).
    assert (G := bm_good B). unfold source_vertices in G. rewrite !Forall_app in G. destruct G as (G & _). rewrite Forall_forall in G.
    assert (Ga := G va (at_ix_In _ _ E2)). assert (Gb := G vb (at_ix_In _ _ E3)). destruct Ga as (Wa & Na & _), Gb as (Wb & Nb & _).
    destruct (@c74_points D grid va vb i0 e (conj Wa Na) (conj Wb Nb) He) as (T0 & T1 & EI & _). rewrite EI, E1 in T. apply Some_inj in T. subst tl.
    apply at_ix_range in E2, E3. destruct Ht as [<-|[<-|[]]]; cbn; (split; [auto|split; [auto|qc_lra]]).
  - destruct X as [X _]. apply in_concat in X as (li & Hl & Hti). destruct (bm_ti B li tr Hl Hti) as (([[a b] c] & E) & (_ & V & _)). rewrite E in T. apply Some_inj in T. subst tl.
    assert (FR := bm_F B). rewrite Forall_forall in FR. assert (FR' := FR _ (at_ix_In _ _ E)). cbn in FR'.
    destruct Ht as [<-|[<-|[<-|[]]]]; cbn; (split; [auto|split; [tauto|apply V; lia]]).
Qed.

(** the entries of row r add up to the number of crossings with index r *)
Theorem c113_row_sum D s grid d rows cols ts r : baked_mesh D s grid d -> barycentric_map s d = Some (rows, cols, ts) ->
  mulv ts (fun _ => 1%Qc) r = Z2Qc (Z.of_nat (length (carriers s d r))).
Proof.
  intros B E. rewrite (@c113_rows _ _ _ _ _ _ _ E). assert (H : forall c, In c (carriers s d r) -> value d (fun _ => 1%Qc) (fst c) = 1%Qc).
  { intros [src i] Hc. apply filter_In in Hc as [Hc _]. apply in_combine_l in Hc. destruct (source_ok _ B Hc) as [_ V]. exact V. }
  revert H. generalize (carriers s d r). induction l as [|c l IH]; intros H; [reflexivity|]. cbn [lsum length]. rewrite H, IH by (intros; try apply H; cbn; auto).
  rewrite Nat2Z.inj_succ. unfold Z.succ. rewrite Z2Qc_plus, Z2Qc_1. ring.
Qed.

(** a crossing whose position no other crossing shares: its row interpolates, and the weights are a convex combination *)
Definition alone (s : list Z) (d : bdata) (k : nat) : Prop :=
  forall j v w, nth_error (source_vertices d) k = Some v -> nth_error (source_vertices d) j = Some w -> pos v = pos w -> j = k.
Lemma filter_single (A : Type) (f : A -> bool) l k a : nth_error l k = Some a -> f a = true -> (forall j b, nth_error l j = Some b -> f b = true -> j = k) -> filter f l = [a].
Proof.
  revert k. induction l as [|x l IH]; intros k E Fa H; [destruct k; discriminate|]. cbn [filter]. destruct k as [|k].
  - cbn in E. assert (x = a) by congruence. subst x. rewrite Fa. f_equal.
    assert (N : forall b, In b l -> f b = false). { intros b Hb. apply In_nth_error in Hb as (j & Hj). destruct (f b) eqn:Fb; auto. assert (X := H (S j) b Hj Fb). discriminate. }
    clear - N. induction l as [|y l IH]; auto. cbn. rewrite (N y) by (cbn; auto). apply IH. intros; apply N; cbn; auto.
  - cbn in E. destruct (f x) eqn:Fx; [assert (X := H 0%nat x eq_refl Fx); discriminate|]. apply (IH k); auto. intros j b Hj Fb. assert (X := H (S j) b Hj Fb). congruence.
Qed.
Lemma alone_carrier D s grid d k src i : baked_mesh D s grid d -> nth_error (sources d) k = Some src -> nth_error (crossing_ixs s d) k = Some i ->
  (alone s d k <-> carriers s d i = [(src, i)]).
Proof.
  intros B H1 H2. assert (CC : compute_crossings s (source_vertices d) = (crossing_ixs s d, snd (compute_crossings s (source_vertices d)))) by apply surjective_pairing.
  destruct (@c14_crossing_indices _ _ _ _ _ (bm_good B) CC) as (L & A & _). split.
  - intros AL. unfold carriers. apply filter_single with k.
    + apply combine_nth. auto.
    + cbn. apply Z.eqb_refl.
    + intros j [src' i'] Hj Ej. cbn in Ej. apply Z.eqb_eq in Ej. subst i'. apply combine_nth in Hj as [J1 J2].
      destruct (nth_error_lt _ (source_vertices d) k) as [v Hv]; [rewrite <- L; apply nth_error_Some; congruence|].
      destruct (nth_error_lt _ (source_vertices d) j) as [w Hw]; [rewrite <- L; apply nth_error_Some; congruence|].
      apply (AL j v w); auto. apply (A k j v w i i); auto.
  - intros CR j v w Hv Hw P. destruct (nth_error_lt _ (crossing_ixs s d) j) as [i' J2]; [rewrite L; apply nth_error_Some; congruence|].
    destruct (nth_error_lt _ (sources d) j) as [src' J1]; [rewrite sources_len; apply nth_error_Some; congruence|].
    assert (i' = i) by (symmetry; apply (A k j v w i i'); auto). subst i'.
    assert (G : forall l : list (source * Z), filter (fun c => snd c =? i) l = [(src, i)] -> forall a b x y, nth_error l a = Some (x, i) -> nth_error l b = Some (y, i) -> a = b).
    { clear. induction l as [|[x0 i0] l IH]; intros F a b x y Ha Hb; [destruct a; discriminate|]. cbn [filter snd] in F.
      destruct (Z.eqb_spec i0 i) as [->|N0].
      - assert (F' : filter (fun c => snd c =? i) l = []) by congruence. assert (NO : forall z, ~ In (z, i) l). { intros z Hz. assert (In (z, i) (filter (fun c => snd c =? i) l)) by (apply filter_In; cbn; split; auto; apply Z.eqb_refl). rewrite F' in H. destruct H. }
        destruct a as [|a], b as [|b]; auto; cbn in *; exfalso; [apply (NO y)|apply (NO x)|apply (NO x)]; eapply nth_error_In; eauto.
      - destruct a as [|a], b as [|b]; cbn in *; try congruence. f_equal. eapply IH; eauto. }
    apply (G (crossings s d) CR j k src' src); apply combine_nth; auto.
Qed.
Theorem c113_alone D s grid d rows cols ts k src i x : baked_mesh D s grid d -> barycentric_map s d = Some (rows, cols, ts) ->
  nth_error (sources d) k = Some src -> nth_error (crossing_ixs s d) k = Some i ->
  (alone s d k -> mulv ts x i = value d x src) /\ (alone s d k <-> mulv ts (fun _ => 1%Qc) i = 1%Qc).
Proof.
  intros B E H1 H2. assert (AC := alone_carrier _ B H1 H2). split.
  - intros AL. rewrite (@c113_rows _ _ _ _ _ _ _ E). apply AC in AL. rewrite AL. cbn [lsum fst]. ring.
  - rewrite (@c113_row_sum _ _ _ _ _ _ _ _ B E). rewrite AC. split; [intros ->; apply Z2Qc_1|]. intros H. rewrite <- Z2Qc_1 in H. apply Z2Qc_inj in H.
    assert (IN : In (src, i) (carriers s d i)) by (apply filter_In; split; [eapply nth_error_In; apply combine_nth; eauto|apply Z.eqb_refl]).
    destruct (carriers s d i) as [|c [|c' l]]; [destruct IN| |cbn in H; lia]. destruct IN as [->|[]]. auto.
Qed.
(** applied to a coordinate of the mesh vertices the row gives that coordinate of the cut vertex: exactly at mesh vertices, within the snapping distance on edges *)
Definition coord_of (d : bdata) (a : nat) (i : Z) : Qc := match at_ix (bd_V d) i with Some v => qat (pos v) a | None => 0%Qc end.
Theorem c113_points D s grid d rows cols ts k src i v a : baked_mesh D s grid d -> barycentric_map s d = Some (rows, cols, ts) ->
  nth_error (sources d) k = Some src -> nth_error (crossing_ixs s d) k = Some i -> nth_error (source_vertices d) k = Some v -> alone s d k -> (a < D)%nat ->
  match src with
  | SVtx _ => mulv ts (coord_of d a) i = qat (pos v) a
  | SEdge _ => (qabs (mulv ts (coord_of d a) i - qat (pos v) a) < bake_threshold grid + bake_threshold grid)%Qc
  | STri _ => True
  end.
Proof.
  intros B E H1 H2 Hv AL Ha. destruct (@c113_alone D s grid d rows cols ts k src i (coord_of d a) B E H1 H2) as [V _]. rewrite (V AL). clear V. assert (X := sources_vertex _ _ H1 Hv).
  destruct src as [j|e|t]; auto; cbn [value].
  - unfold coord_of. rewrite X. auto.
  - destruct X as [X ->]. apply in_concat in X as (l & Hl & He). destruct (bm_ei B l Hl) as (i0 & p & q & va & vb & E1 & E2 & E3 & ->).
    assert (G := bm_good B). unfold source_vertices in G. rewrite !Forall_app in G. destruct G as (G & _). rewrite Forall_forall in G.
    assert (Ga := G va (at_ix_In _ _ E2)). assert (Gb := G vb (at_ix_In _ _ E3)). destruct Ga as (Wa & Na & _), Gb as (Wb & Nb & _).
    destruct (@c74_points D grid va vb i0 e (conj Wa Na) (conj Wb Nb) He) as (_ & _ & EI & _ & _ & _ & P & _). rewrite EI, E1. unfold coord_of. rewrite E2, E3.
    assert (Q := P a Ha). unfold on_segment in Q. revert Q. generalize (qat (pos va) a), (qat (pos vb) a), (qat (pos (ei_v e)) a), (ei_coord e), (bake_threshold grid + bake_threshold grid)%Qc.
    intros y z p0 t h Q. apply qabs_lt in Q. apply qabs_lt. destruct Q as [Q1 Q2]. unfold Qclt in *. split; q_push; nra.
Qed.
(** k crossings that coincide (and where x has the same value) give k times the value *)
Theorem c113_multiplicity s d rows cols ts x r y : barycentric_map s d = Some (rows, cols, ts) ->
  (forall src, In (src, r) (crossings s d) -> value d x src = y) -> mulv ts x r = (Z2Qc (Z.of_nat (length (carriers s d r))) * y)%Qc.
Proof.
  intros E H. rewrite (@c113_rows _ _ _ _ _ _ _ E). assert (H' : forall c, In c (carriers s d r) -> value d x (fst c) = y).
  { intros [src i] Hc. apply filter_In in Hc as [Hc Ei]. cbn in Ei. apply Z.eqb_eq in Ei. subst. apply H; auto. }
  revert H'. generalize (carriers s d r). clear. induction l as [|c l IH]; intros H; [cbn; change (Z2Qc 0) with 0%Qc; ring|]. cbn [lsum length].
  rewrite H, IH by (intros; try apply H; cbn; auto). rewrite Nat2Z.inj_succ. unfold Z.succ. rewrite Z2Qc_plus, Z2Qc_1. ring.
Qed.
(** cut_vertices: column i - grid_size is the position of every crossing with index i, and every column is filled *)
Lemma col_set_map l i v : col_set (map (option_map pos) l) i (pos v) = map (option_map pos) (slot_set l i v).
Proof. revert i. induction l as [|a l IH]; intros [|i]; cbn; auto. rewrite IH. auto. Qed.
Lemma cut_fold s cs : forall slots,
  fold_left (fun ret '(v, i) => if shape_size s <=? i then col_set ret (Z.to_nat (i - shape_size s)) (pos v) else ret) cs (map (option_map pos) slots) =
  map (option_map pos) (fold_left (fun slots '(v, i) => if 0 <=? i - shape_size s then slot_set slots (Z.to_nat (i - shape_size s)) v else slots) cs slots).
Proof.
  induction cs as [|[v i] cs IH]; intros slots; cbn [fold_left]; auto. rewrite <- IH. f_equal.
  destruct (Z.leb_spec (shape_size s) i), (Z.leb_spec 0 (i - shape_size s)); try lia; auto. apply col_set_map.
Qed.
Theorem c113_columns D s grid d rows cols ts : baked_mesh D s grid d -> barycentric_map s d = Some (rows, cols, ts) ->
  Z.of_nat (length (cut_vertices s d)) = rows - shape_size s /\
  (forall k v i, nth_error (source_vertices d) k = Some v -> nth_error (crossing_ixs s d) k = Some i -> shape_size s <= i ->
     nth_error (cut_vertices s d) (Z.to_nat (i - shape_size s)) = Some (Some (pos v))) /\
  ~ In None (cut_vertices s d).
Proof.
  intros B E. assert (R : rows = cut_vertex_size s (crossing_ixs s d)) by (unfold barycentric_map in E; destruct (sequence _); congruence). subst rows.
  assert (CC : compute_crossings s (source_vertices d) = (crossing_ixs s d, snd (compute_crossings s (source_vertices d)))) by apply surjective_pairing.
  destruct (@c14_crossing_indices _ _ _ _ _ (bm_good B) CC) as (L & A1 & A2 & A3). assert (CV := @c14_vertex_count _ _ _ _ _ (bm_good B) CC). rewrite <- CV in *.
  assert (GE := cut_vertex_size_ge s (crossing_ixs s d)). set (n := cut_vertex_size s (crossing_ixs s d)) in *.
  assert (BD : forall k v i, nth_error (source_vertices d) k = Some v -> nth_error (crossing_ixs s d) k = Some i -> i < n).
  { intros k v i Hv Hi. destruct (A2 k v i Hv Hi) as [G1 G2]. destruct (is_grid_vertex v); [destruct (G1 eq_refl); lia|destruct (G2 eq_refl); lia]. }
  unfold cut_vertices. fold n. destruct (Z.eqb_spec n (shape_size s)) as [EQ|NE].
  - split; [cbn; lia|]. split; [|intros []]. intros k v i Hv Hi GI. assert (X := BD k v i Hv Hi). lia.
  - set (N := Z.to_nat (n - shape_size s)). assert (RP : repeat (@None (list Qc)) N = map (option_map pos) (repeat None N)) by (clear; induction N; cbn; congruence).
    rewrite RP, cut_fold. set (cs := combine (source_vertices d) (crossing_ixs s d)). set (R := fold_left _ cs (repeat None N)).
    assert (LR : length R = N). { destruct (bake_fold s cs (repeat None N) 0) as (B1 & _). rewrite repeat_length in B1. exact B1. }
    assert (SL : forall k, (k < N)%nat -> exists v, In (v, shape_size s + Z.of_nat k) cs /\ nth_error R k = Some (Some v)).
    { intros k Hk. destruct (bake_fold s cs (repeat None N) k) as (_ & B2 & _). apply B2; [|rewrite repeat_length; auto].
      destruct (A3 (shape_size s + Z.of_nat k)) as (j & v & J1 & J2 & _); [lia|]. exists v. apply nth_error_In with j. apply combine_nth. auto. }
    split; [rewrite map_length; lia|]. split.
    + intros k v i Hv Hi GI. rewrite nth_error_map. assert (X := BD k v i Hv Hi). destruct (SL (Z.to_nat (i - shape_size s))) as (w & W1 & W2); [lia|]. rewrite W2. cbn. do 2 f_equal.
      replace (shape_size s + Z.of_nat (Z.to_nat (i - shape_size s))) with i in W1 by lia. apply In_nth_error in W1 as (j & Hj). apply combine_nth in Hj as [J1 J2].
      apply (A1 j k w v i i); auto.
    + intros H. apply in_map_iff in H as (o & Ho & H). apply In_nth_error in H as (k & Hk). assert (k < N)%nat by (rewrite <- LR; apply nth_error_Some; congruence).
      destruct (SL k) as (v & _ & V2); auto. rewrite Hk in V2. assert (o = Some v) by congruence. subst. discriminate.
Qed.
(** REFUTED: the map does not interpolate where mesh vertices coincide, as in a triangle soup or a curve given segment by segment; here two segments that share an end point *)
Definition qq (a : Z) (b : positive) : Qc := Q2Qc (a # b).
Definition soup_V : list vertex := map from_vertex [[qq 1 2; qq 1 2]; [qq 3 2; qq 1 2]; [qq 3 2; qq 1 2]; [qq 3 2; qq 7 4]].
Definition soup : bdata := mkBD soup_V [(0, 1); (2, 3)] []
  [bake_edge (Some [5; 5]) (nth 0 soup_V (mkVertex [] [] [])) (nth 1 soup_V (mkVertex [] [] [])) 0;
   bake_edge (Some [5; 5]) (nth 2 soup_V (mkVertex [] [] [])) (nth 3 soup_V (mkVertex [] [] [])) 1] [].
Definition goodb (D : nat) (s : list Z) (v : vertex) : bool :=
  (length (v_coord v) =? D)%nat && (length (v_quot v) =? D)%nat && (length (v_clamped v) =? D)%nat && forallb (fun q => qleb 0 q && qltb q 1) (v_quot v) &&
  forallb (fun '(b, q) => Bool.eqb b (qeqb q 0)) (combine (v_clamped v) (v_quot v)) && implb (is_grid_vertex v) (in_shape s (v_coord v)).
Lemma goodb_ok D s v : goodb D s v = true -> good_crossing D s v.
Proof.
  unfold goodb. rewrite !andb_true_iff. intros (((((L1 & L2) & L3) & Q) & F) & I). apply Nat.eqb_eq in L1, L2, L3. split; [repeat split; auto|]. split.
  { apply Forall_forall. intros q Hq. rewrite forallb_forall in Q. apply Q in Hq. apply andb_true_iff in Hq as [H1 H2]. apply qleb_le in H1. apply qltb_lt in H2. auto. }
  split.
  - unfold flags_exact. rewrite <- L2 in L3. clear -L3 F. revert L3 F. generalize (v_clamped v), (v_quot v). intros bs. induction bs as [|b bs IH]; intros [|q l0] L F; cbn in L; try discriminate; constructor.
    + cbn in F. apply andb_true_iff in F as [F _]. apply Bool.eqb_prop in F. subst b. rewrite qeqb_eq. tauto.
    + cbn in F. apply andb_true_iff in F as [_ F]. apply IH; auto.
  - intros G. rewrite G in I. exact I.
Qed.
Lemma soup_baked : baked_mesh 2 [5; 5] (Some [5; 5]) soup.
Proof.
  constructor.
  - repeat constructor.
  - apply Forall_forall. intros v Hv. apply goodb_ok. revert v Hv. apply forallb_forall. vm_compute. reflexivity.
  - repeat constructor; cbn; discriminate || reflexivity.
  - constructor.
  - intros l [<-|[<-|[]]]; [exists 0, 0, 1|exists 1, 2, 3]; do 2 eexists; repeat split; reflexivity.
  - intros l t [].
Qed.
Theorem c113_soup_refuted : exists s grid d rows cols ts i v, baked_mesh 2 s grid d /\ barycentric_map s d = Some (rows, cols, ts) /\
  nth_error (source_vertices d) 1 = Some v /\ nth_error (crossing_ixs s d) 1 = Some i /\
  mulv ts (fun _ => 1%Qc) i = Z2Qc 2 /\ qat (pos v) 0 = Q2Qc (3 # 2) /\ mulv ts (coord_of d 0) i = Z2Qc 3.
Proof.
  destruct (@c113_shape 2 [5; 5] (Some [5; 5]) soup soup_baked) as (rows & ts & E & _). exists [5; 5], (Some [5; 5]), soup, rows, (nV soup), ts, 26, (nth 1 soup_V (mkVertex [] [] [])).
  split; [exact soup_baked|]. split; [exact E|]. split; [reflexivity|]. split; [vm_compute; reflexivity|]. split; [|split].
  - rewrite (@c113_row_sum _ _ _ _ _ _ _ _ soup_baked E). f_equal.
  - apply Qc_is_canon. vm_compute. reflexivity.
  - rewrite (@c113_rows _ _ _ _ _ _ _ E). apply Qc_is_canon. vm_compute. reflexivity.
Qed.
(** REFUTED: SliceGenerator::slice compactifies its result, barycentric_map does not: as soon as one cut vertex (for example one of the twelve grid vertices) is not
    a corner of a returned triangle, the map has more rows than the slice has vertices *)
Theorem c113_slice_rows_refuted D s grid d rows cols ts F : baked_mesh D s grid d -> barycentric_map s d = Some (rows, cols, ts) ->
  Forall (fun '(a, b, c) => 0 <= a < rows /\ 0 <= b < rows /\ 0 <= c < rows) F -> (exists i, 0 <= i < rows /\ ~ In i (used_vertices F)) ->
  Z.of_nat (length (used_vertices F)) < rows.
Proof.
  intros B E HF (i & Hi & NI). assert (ND : NoDup (i :: used_vertices F)) by (constructor; auto; apply (@set_of_list_NoDup _ Z.compare Zcompare_total)).
  assert (INC : incl (i :: used_vertices F) (zseq rows)).
  { intros x [<-|Hx]; apply zseq_in; auto. unfold used_vertices in Hx. apply (proj1 (set_of_list_In Zcompare_total _ _)) in Hx. apply in_flat_map in Hx as ([[a b] c] & H1 & H2). rewrite Forall_forall in HF. assert (X := HF _ H1). cbn in X, H2.
    destruct H2 as [<-|[<-|[<-|[]]]]; tauto. }
  assert (X := NoDup_incl_length ND INC). cbn [length] in X. unfold zseq in X. rewrite map_length, seq_length in X. lia.
Qed.
Example c113_slice_rows_sample : exists rows cols ts, barycentric_map [5; 5] soup = Some (rows, cols, ts) /\ rows = 30 /\ used_vertices [(25, 26, 27)] = [25; 26; 27] /\ ~ In 0 (used_vertices [(25, 26, 27)]).
Proof. destruct (@c113_shape 2 [5; 5] (Some [5; 5]) soup soup_baked) as (rows & ts & E & R & _). exists rows, (nV soup), ts. split; [exact E|]. split; [rewrite <- R; vm_compute; reflexivity|]. split; [reflexivity|]. vm_compute. intuition discriminate. Qed.
(** the hypotheses are met: vertex 0 and the crossing of the first segment with the line x = 1 are alone *)
Example c113_sample : alone [5; 5] soup 0 /\ alone [5; 5] soup 4 /\ match nth_error (sources soup) 4 with Some (SEdge e) => this (ei_coord e) = (1 # 2)%Q | _ => False end.
Proof.
  assert (N : forall k, (forall j, j <> k -> match nth_error (source_vertices soup) k, nth_error (source_vertices soup) j with Some v, Some w => map this (pos v) <> map this (pos w) | _, _ => True end) -> alone [5; 5] soup k).
  { intros k H j v w Hv Hw P. destruct (Nat.eq_dec j k) as [|NJ]; auto. exfalso. assert (X := H j NJ). rewrite Hv, Hw in X. apply X. congruence. }
  split; [|split].
  - apply N. intros j NJ. destruct j as [|[|[|[|[|[|j]]]]]]; try (exfalso; lia); try (vm_compute; discriminate). destruct (nth_error (source_vertices soup) 0); auto. rewrite (proj2 (nth_error_None _ _)); auto. vm_compute. lia.
  - apply N. intros j NJ. destruct j as [|[|[|[|[|[|j]]]]]]; try (exfalso; lia); try (vm_compute; discriminate). destruct (nth_error (source_vertices soup) 4); auto. rewrite (proj2 (nth_error_None _ _)); auto. vm_compute. lia.
  - vm_compute. reflexivity.
Qed.

(** ** C114 *)
Lemma facet_edges_In ps x y : In (x, y) (facet_edges ps) <-> x < y /\ (In (x, y) ps \/ In (y, x) ps).
Proof.
  unfold facet_edges. rewrite in_flat_map. split.
  - intros ([a b] & H & I). destruct (Z.eqb_spec a b); [destruct I|]. destruct I as [E|[]]. unfold sorted_pair in E. destruct (Z.ltb_spec b a); apply pair_equal_spec in E as [-> ->]; split; auto; lia.
  - intros (L & [H|H]); [exists (x, y)|exists (y, x)]; (split; auto); unfold sorted_pair.
    + destruct (Z.eqb_spec x y); [lia|]. destruct (Z.ltb_spec y x); [lia|left; auto].
    + destruct (Z.eqb_spec y x); [lia|]. destruct (Z.ltb_spec x y); [left; auto|lia].
Qed.
Lemma fold_insert2_In (l : list (list (Z * Z))) e : forall S, In e (fold_left (fun S e => fold_left (fun S x => set_insert pair_cmp2 x S) e S) l S) <-> (exists t, In t l /\ In e t) \/ In e S.
Proof.
  induction l as [|t l IH]; intros S; cbn [fold_left]; [split; [auto|intros [(t & [] & _)|H]; auto]|]. rewrite IH, (fold_insert_In pair_cmp2_total). split.
  - intros [(t' & H1 & H2)|[H|H]]; [left; exists t'; cbn; auto|left; exists t; cbn; auto|auto].
  - intros [(t' & [->|H1] & H2)|H]; [auto|left; eauto|auto].
Qed.
Lemma fold_insert2_sorted (l : list (list (Z * Z))) : forall S, ssorted pair_cmp2 S -> ssorted pair_cmp2 (fold_left (fun S e => fold_left (fun S x => set_insert pair_cmp2 x S) e S) l S).
Proof. induction l as [|t l IH]; intros S H; cbn [fold_left]; auto. apply IH. apply (fold_insert_sorted pair_cmp2_total); auto. Qed.
Lemma edge_edges_In ix grid edges x y : In (x, y) (edge_edges ix grid edges) <->
  x < y /\ exists i a b, In (i, (a, b)) (numbered edges) /\ (In (x, y) (edge_pairs ix grid a b i) \/ In (y, x) (edge_pairs ix grid a b i)).
Proof.
  unfold edge_edges. rewrite fold_insert2_In. split.
  - intros [(t & H1 & H2)|[]]. apply in_map_iff in H1 as ((i & a & b) & <- & H1). apply (proj1 (set_of_list_In pair_cmp2_total _ _)) in H2. apply facet_edges_In in H2 as (L & H2). split; auto. exists i, a, b. auto.
  - intros (L & i & a & b & H1 & H2). left. eexists. split; [apply in_map_iff; exists (i, (a, b)); split; [reflexivity|auto]|]. apply (set_of_list_In pair_cmp2_total). apply facet_edges_In. auto.
Qed.
Lemma face_edges_In ix remap grid tris out x y : face_edges ix remap grid tris out ->
  (In (x, y) out <-> x < y /\ exists segs seg, In segs tris /\ In seg segs /\ (In (x, y) (segment_pairs ix remap grid seg) \/ In (y, x) (segment_pairs ix remap grid seg))).
Proof.
  intros (order & I & ->). rewrite (fold_insert_In pair_cmp2_total). apply interleaves_perm in I.
  assert (P : In (x, y) order <-> In (x, y) (concat (map (fun segs => facet_edges (tri_pairs ix remap grid segs)) tris))) by (split; apply Permutation_in; auto; symmetry; auto).
  rewrite P, in_concat. split.
  - intros [(t & H1 & H2)|[]]. apply in_map_iff in H1 as (segs & <- & H1). apply facet_edges_In in H2 as (L & H2). split; auto.
    unfold tri_pairs in H2. rewrite !in_flat_map in H2. destruct H2 as [(seg & S1 & S2)|(seg & S1 & S2)]; exists segs, seg; auto.
  - intros (L & segs & seg & H1 & H2 & H3). left. eexists. split; [apply in_map_iff; exists segs; split; [reflexivity|auto]|]. apply facet_edges_In. split; auto. unfold tri_pairs. rewrite !in_flat_map.
    destruct H3; [left|right]; eauto.
Qed.
(** the recorded cut edges of a segment are exactly its pieces *)
Lemma tri_cut_edges_pairs ix remap grid seg : map (fun c => snd (fst c)) (tri_cut_edges ix remap grid seg) = segment_pairs ix remap grid seg.
Proof.
  unfold tri_cut_edges, segment_pairs. destruct seg as [a b]. cbn [fst snd]. destruct (bake_edge grid a b (-1)) as [|e R]; [reflexivity|]. rewrite map_map. apply map_ext. intros [p q]. reflexivity.
Qed.
Lemma cut_edges_of_pairs ix grid a b i x y : x <> y -> ((exists m k, In (m, (x, y), k) (cut_edges_of ix grid a b i) \/ In (m, (y, x), k) (cut_edges_of ix grid a b i)) <->
  (In (x, y) (edge_pairs ix grid a b i) \/ In (y, x) (edge_pairs ix grid a b i))).
Proof.
  intros N. unfold edge_pairs. rewrite !in_map_iff. split.
  - intros (m & k & H).
    assert (G : forall u w, In (m, (u, w), k) (cut_edges_of ix grid a b i) -> exists p q, In (p, q) (consecutive (gvertices a b (bake_edge grid a b i))) /\ ((u = ix p /\ w = ix q) \/ (u = ix q /\ w = ix p))).
    { intros u w Hu. unfold cut_edges_of in Hu. destruct (bake_edge grid a b i) as [|e R].
      - destruct Hu as [E|[]]. apply pair_equal_spec in E as [E _]. apply pair_equal_spec in E as [_ E]. apply pair_equal_spec in E as [<- <-]. exists (CV a), (CV b). split; [left; auto|auto].
      - apply in_map_iff in Hu as ([u' w'] & E & Hu). apply pair_equal_spec in E as [E _]. apply pair_equal_spec in E as [_ E]. apply pair_equal_spec in E as [-> ->]. apply edges_of_In in Hu as (_ & H'). auto. }
    destruct H as [H|H]; apply G in H as (p & q & H1 & [[-> ->]|[-> ->]]); [left|right|right|left]; exists (p, q); auto.
  - assert (C : forall p q, In (p, q) (consecutive (gvertices a b (bake_edge grid a b i))) -> ix p <> ix q -> exists m k, In (m, (ix p, ix q), k) (cut_edges_of ix grid a b i) \/ In (m, (ix q, ix p), k) (cut_edges_of ix grid a b i)).
    { intros p q H1 H2. destruct (c76_complete ix grid a b i p q H1 H2) as (u & w & H3 & [[-> ->]|[-> ->]]); eauto. }
    intros [([p q] & E & H)|([p q] & E & H)]; apply pair_equal_spec in E as [<- <-]; (destruct (C p q H) as (m & k & H'); [auto|]; exists m, k; tauto).
Qed.
(** edges() lists exactly the pairs of different indices joined by a cut edge, whatever the schedules of the two parallel loops *)
Theorem c114_exact ix remap grid edges tris out cuts x y : stl_edges ix remap grid edges tris out -> all_cut_edges ix remap grid edges tris cuts ->
  (In (x, y) out <-> x < y /\ exists m k, In (m, (x, y), k) cuts \/ In (m, (y, x), k) cuts).
Proof.
  intros (EF & HF & ->) (c1 & HC & ->). rewrite (fold_insert_In pair_cmp2_total), edge_edges_In, (@face_edges_In ix remap grid tris EF x y HF). apply c76_schedule in HC.
  assert (IC : forall e, In e (c1 ++ flat_map (flat_map (tri_cut_edges ix remap grid)) tris) <->
     (exists i a b, In (i, (a, b)) (numbered edges) /\ In e (cut_edges_of ix grid a b i)) \/ (exists segs seg, In segs tris /\ In seg segs /\ In e (tri_cut_edges ix remap grid seg))).
  { intros e. rewrite in_app_iff. assert (P : In e c1 <-> In e (concat (map (fun '(i, (a, b)) => cut_edges_of ix grid a b i) (numbered edges)))) by (split; apply Permutation_in; auto; symmetry; auto).
    rewrite P, in_concat. rewrite in_flat_map. split.
    - intros [(t & H1 & H2)|(segs & H1 & H2)]; [left|right].
      + apply in_map_iff in H1 as ((i & a & b) & <- & H1). eauto.
      + apply in_flat_map in H2 as (seg & H2 & H3). eauto.
    - intros [(i & a & b & H1 & H2)|(segs & seg & H1 & H2 & H3)]; [left|right].
      + eexists. split; [apply in_map_iff; exists (i, (a, b)); split; [reflexivity|auto]|auto].
      + exists segs. split; auto. apply in_flat_map. eauto. }
  assert (IT : forall seg u w, In (u, w) (segment_pairs ix remap grid seg) <-> exists m k, In (m, (u, w), k) (tri_cut_edges ix remap grid seg)).
  { intros seg u w. rewrite <- tri_cut_edges_pairs, in_map_iff. split.
    - intros ([[m [u' w']] k] & E & H). cbn in E. apply pair_equal_spec in E as [-> ->]. eauto.
    - intros (m & k & H). exists (m, (u, w), k). auto. }
  split.
  - intros [(L & segs & seg & H1 & H2 & H3)|(L & i & a & b & H1 & H2)]; (split; auto).
    + rewrite !IT in H3. destruct H3 as [(m & k & H3)|(m & k & H3)]; exists m, k; [left|right]; apply IC; right; eauto.
    + apply cut_edges_of_pairs in H2; [|lia]. destruct H2 as (m & k & [H2|H2]); exists m, k; [left|right]; apply IC; left; eauto 6.
  - intros (L & m & k & H). assert (N : x <> y) by lia. destruct H as [H|H]; apply IC in H as [(i & a & b & H1 & H2)|(segs & seg & H1 & H2 & H3)].
    + right. split; auto. exists i, a, b. split; auto. apply (cut_edges_of_pairs ix grid a b i N). eauto.
    + left. split; auto. exists segs, seg. split; auto. split; auto. left. apply IT. eauto.
    + right. split; auto. exists i, a, b. split; auto. apply (cut_edges_of_pairs ix grid a b i N). eauto.
    + left. split; auto. exists segs, seg. split; auto. split; auto. right. apply IT. eauto.
Qed.
(** no pair twice, the smaller index first, lexicographically increasing; one result for all schedules *)
Theorem c114_set ix remap grid edges tris out : stl_edges ix remap grid edges tris out ->
  ssorted pair_cmp2 out /\ NoDup out /\ (forall x y, In (x, y) out -> x < y) /\ (forall out', stl_edges ix remap grid edges tris out' -> out' = out).
Proof.
  assert (SRT : forall o, stl_edges ix remap grid edges tris o -> ssorted pair_cmp2 o).
  { intros o (EF & _ & ->). apply (fold_insert_sorted pair_cmp2_total). unfold edge_edges. apply fold_insert2_sorted. constructor. }
  intros H. assert (S := SRT _ H). split; auto. split; [apply (ssorted_NoDup pair_cmp2_total S)|].
  assert (C : all_cut_edges ix remap grid edges tris (concat (map (fun '(i, (a, b)) => cut_edges_of ix grid a b i) (numbered edges)) ++ flat_map (flat_map (tri_cut_edges ix remap grid)) tris)).
  { eexists. split; [|reflexivity]. apply interleaves_concat. }
  split; [intros x y Hxy; apply (@c114_exact ix remap grid edges tris out _ x y H C) in Hxy; apply Hxy|].
  intros out' H'. apply (ssorted_ext pair_cmp2_total); auto. intros [x y]. rewrite (@c114_exact ix remap grid edges tris out _ x y H C), (@c114_exact ix remap grid edges tris out' _ x y H' C). tauto.
Qed.
(** the two ends of every input edge are joined by a path of them *)
Theorem c114_connected ix remap grid edges tris out i a b : stl_edges ix remap grid edges tris out -> nth_error edges i = Some (a, b) ->
  clos_refl_trans Z (fun x y => In (x, y) out \/ In (y, x) out) (ix (CV a)) (ix (CV b)).
Proof.
  intros H E. assert (P := c76_connected ix grid a b (Z.of_nat i)).
  assert (C : all_cut_edges ix remap grid edges tris (concat (map (fun '(i, (a, b)) => cut_edges_of ix grid a b i) (numbered edges)) ++ flat_map (flat_map (tri_cut_edges ix remap grid)) tris)).
  { eexists. split; [|reflexivity]. apply interleaves_concat. }
  assert (IN : forall e, In e (cut_edges_of ix grid a b (Z.of_nat i)) -> In e (concat (map (fun '(i, (a, b)) => cut_edges_of ix grid a b i) (numbered edges)))).
  { intros e He. apply in_concat. eexists. split; [apply in_map_iff; exists (Z.of_nat i, (a, b)); split; [reflexivity|]|exact He].
    unfold numbered. apply nth_error_In with i. apply combine_nth. split; auto. rewrite nth_error_map. assert (L : (i < length edges)%nat) by (apply nth_error_Some; congruence).
    rewrite (nth_error_nth' _ 0%nat) by (rewrite seq_length; auto). rewrite seq_nth by auto. reflexivity. }
  induction P as [x y (m & k & J)|x|x y z P1 IH1 P2 IH2]; [|apply rt_refl|eapply rt_trans; eauto].
  destruct (Z.eq_dec x y) as [->|N]; [apply rt_refl|]. apply rt_step. destruct (Z.lt_ge_cases x y) as [L|L].
  - left. apply (@c114_exact ix remap grid edges tris out _ x y H C). split; auto. exists m, k. destruct J; [left|right]; apply in_or_app; left; auto.
  - right. apply (@c114_exact ix remap grid edges tris out _ y x H C). split; [lia|]. exists m, k. destruct J; [right|left]; apply in_or_app; left; auto.
Qed.
(** cut_edges() itself may contain degenerate and repeated edges inside triangles: an uncut segment is recorded as it is, and edges() drops it (cf. C76) *)
Theorem c114_degenerate_refuted ix remap grid a b : bake_edge grid a b (-1) = [] -> ix (CV a) = ix (CV b) ->
  In (edge_mask a b, (ix (CV a), ix (CV a)), -1) (tri_cut_edges ix remap grid (a, b)).
Proof. intros E I. unfold tri_cut_edges. rewrite E. left. rewrite <- I. reflexivity. Qed.
Example c114_sample : exists out, stl_edges ix0 (fun _ => None) sg [(e1a, e1b); (e1a, e2b)] [[(e1b, e2b)]; [(e1b, e1b)]] out /\ out = [(0, 1); (0, 100); (1, 100)].
Proof.
  eexists. split; [exists [(1, 100)]; split|].
  - exists [(1, 100)]. split; [|reflexivity].
    replace (map _ _) with [[(1, 100)]; []] by (vm_compute; reflexivity). apply (interleaves_concat [[(1, 100)]; []]).
  - reflexivity.
  - vm_compute. reflexivity.
Qed.

(** ** C115 *)
Local Open Scope Qc_scope.
(** the external solver finds the coordinates of every point of the triangle's plane (needs a non-degenerate triangle) *)
Definition solves (simplicial : list (list Qc) -> list Qc -> list Qc) (D : nat) (T : tri) : Prop :=
  forall p b, length p = D -> length b = 3%nat -> qat b 0 + qat b 1 + qat b 2 = 1 -> (forall d, (d < D)%nat -> qat p d = bary_point T b d) -> simplicial (map pos (t_v T)) p = b.
Theorem c115_corner S D grid T e01 e12 e20 i d : baked D grid T e01 e12 e20 -> (i < 3)%nat -> (d < D)%nat ->
  valid_bary (get_face_bary S T (QCorner i)) /\ bary_point T (get_face_bary S T (QCorner i)) d = qat (pos (tv T i)) d.
Proof.
  intros B Hi Hd. split; [apply unit_valid; auto|]. unfold bary_point. cbn [get_face_bary]. destruct i as [|[|[|i]]]; try lia; cbn; ring.
Qed.
Theorem c115_own_edge S D grid T e01 e12 e20 s ed e d : baked D grid T e01 e12 e20 -> nth_error (t_edges T) s = Some ed -> In e (te_isects ed) -> (d < D)%nat ->
  valid_bary (get_face_bary S T (QOwn s e)) /\ qabs (qat (pos (ei_v e)) d - bary_point T (get_face_bary S T (QOwn s e)) d) < bake_threshold grid + bake_threshold grid.
Proof.
  intros B Hs He Hd. assert (P : is_point T (TE s e)).
  { unfold is_point, boundary_points. apply in_or_app. left. apply in_flat_map. exists (s, ed). split; [|apply in_map; auto]. apply nth_error_In with s. apply combine_nth. split; auto.
    assert (L : (s < length (t_edges T))%nat) by (apply nth_error_Some; congruence). rewrite (nth_error_nth' _ 0%nat) by (rewrite seq_length; auto). rewrite seq_nth by auto. reflexivity. }
  destruct (c79_boundary _ B P) as (V & _ & X). cbn [get_face_bary tp_bary tp_vertex] in *. split; auto.
Qed.
(** any other point of the plane: its coordinates, exactly *)
Theorem c115_other S D T v b : solves S D T -> v_wf D v -> length b = 3%nat -> qat b 0 + qat b 1 + qat b 2 = 1 ->
  (forall d, (d < D)%nat -> qat (pos v) d = bary_point T b d) -> get_face_bary S T (QVertex v) = b.
Proof. intros H W L1 L2 P. apply H; auto. eapply pos_length; eauto. Qed.
Theorem c115_other_edge S D T x y e b : (0 < D)%nat -> solves S D T -> input_vertex D x -> input_vertex D y -> length b = 3%nat -> qat b 0 + qat b 1 + qat b 2 = 1 ->
  (forall d, (d < D)%nat -> on_segment x y (ei_coord e) d = bary_point T b d) -> get_face_bary S T (QOther x y e) = b.
Proof.
  intros HD H Ix Iy L1 L2 P. destruct (@c77_from_coord D x y (ei_index e) (ei_coord e) 0 Ix Iy HD) as (_ & _ & W & _). apply H; auto; [eapply pos_length; eauto|].
  intros d Hd. destruct (@c77_from_coord D x y (ei_index e) (ei_coord e) d Ix Iy Hd) as (_ & _ & _ & E & _). rewrite E. auto.
Qed.
(** a crossing inside the triangle itself answers with what bake stored (C79) *)
Theorem c115_own_interior S D grid T e01 e12 e20 p q e k : baked D grid T e01 e12 e20 -> is_point T p -> is_point T q -> In e (segment_isects grid T p q) ->
  let t := mkTI (ei_v e) (isect_bary T p q e) k in
  valid_bary (get_face_bary S T (QTri t)) /\ forall d, (d < D)%nat -> qabs (qat (pos (ti_v t)) d - bary_point T (get_face_bary S T (QTri t)) d) <
    bake_threshold grid + bake_threshold grid + (bake_threshold grid + bake_threshold grid).
Proof. intros B Hp Hq He t. exact (@c79_interior D grid T e01 e12 e20 p q e B Hp Hq He). Qed.
(** REFUTED: for a crossing inside another triangle the coordinates in that other triangle are returned, although the point lies in the queried one and the solver would find its coordinates *)
Definition flatT : tri := mkTri (map from_vertex [[0; 0]; [Z2Qc 4; 0]; [0; Z2Qc 4]]) [] 0.
Definition otherT : tri := mkTri (map from_vertex [[Z2Qc 4; 0]; [0; Z2Qc 4]; [0; 0]]) [] 1.
Theorem c115_other_triangle_refuted : exists t, valid_bary (ti_bary t) /\ ti_index t = t_index otherT /\ (forall d, (d < 2)%nat -> qat (pos (ti_v t)) d = bary_point otherT (ti_bary t) d) /\
  (exists b, valid_bary b /\ forall d, (d < 2)%nat -> qat (pos (ti_v t)) d = bary_point flatT b d) /\
  forall S, exists d, (d < 2)%nat /\ qat (pos (ti_v t)) d <> bary_point flatT (get_face_bary S flatT (QTri t)) d.
Proof.
  set (h := Q2Qc (1 # 2)). set (q := Q2Qc (1 # 4)). exists (mkTI (from_vertex [Z2Qc 2; 1]) [h; q; q] 1).
  assert (V : forall x y z, 0 <= x -> 0 <= y -> 0 <= z -> x + y + z = 1 -> valid_bary [x; y; z]).
  { intros x y z X Y Z E. split; auto. split; auto. intros [|[|[|i]]] Hi; cbn; auto; lia. }
  assert (H0 : 0 <= h) by discriminate. assert (Q0 : 0 <= q) by discriminate. assert (HQ : h + q + q = 1) by (apply Qc_is_canon; vm_compute; reflexivity).
  split; [apply V; auto|]. split; [reflexivity|]. split; [|split].
  - intros [|[|d]] Hd; [| |lia]; apply Qc_is_canon; vm_compute; reflexivity.
  - exists [q; h; q]. split; [apply V; auto; rewrite (Qcplus_comm q h); auto|]. intros [|[|d]] Hd; [| |lia]; apply Qc_is_canon; vm_compute; reflexivity.
  - intros S. exists 0%nat. split; [lia|]. cbn [get_face_bary ti_bary ti_v]. intros E. apply (f_equal this) in E. revert E. vm_compute. discriminate.
Qed.
(** the hypothesis on the solver can be met: in flatT the coordinates of a point are 1 - (x + y) / 4, x / 4, y / 4 *)
Example c115_solves : solves (fun _ p => [1 - (qat p 0 + qat p 1) / Z2Qc 4; qat p 0 / Z2Qc 4; qat p 1 / Z2Qc 4]) 2 flatT.
Proof.
  intros p b Lp Lb E P. assert (P0 := P 0%nat ltac:(lia)). assert (P1 := P 1%nat ltac:(lia)). rewrite P0, P1. unfold bary_point.
  assert (C : forall i d, (i < 3)%nat -> (d < 2)%nat -> qat (pos (tv flatT i)) d = match i, d with 1%nat, 0%nat => Z2Qc 4 | 2%nat, 1%nat => Z2Qc 4 | _, _ => 0 end).
  { intros [|[|[|i]]] [|[|d]] Hi Hd; try lia; apply Qc_is_canon; vm_compute; reflexivity. }
  rewrite !C by lia. destruct b as [|x [|y [|z [|]]]]; try discriminate. unfold qat in *. cbn [nth] in *.
  assert (F : Z2Qc 4 <> 0) by discriminate. f_equal; [|f_equal; [|f_equal]]; try (field; auto). transitivity (1 - y - z); [field; auto|]. rewrite <- E. ring.
Qed.
