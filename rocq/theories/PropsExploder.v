(** C48: the exploded mesh. *)
From Verif Require Import Base Num AdaptiveGrid Exploder.
Local Open Scope Z_scope.

(** *** specification *)
Definition q3_0 : q3 := (0, 0, 0)%Qc.
(** region r is shown: no selection, or r selected *)
Definition shown (used : list Z) (r : Z) : Prop := used = [] \/ In r used.
Definition znth (A : Type) (l : list A) (i : Z) : option A := if 0 <=? i then nth_error l (Z.to_nat i) else None.
Arguments znth {A} l i.
(** cell i of the explosion: vertices, faces, region and centre *)
Definition excell (e : exploder) (i : nat) (V : list q3) (F : list c3) (r : Z) (c : q3) : Prop :=
  nth_error (ex_Vs e) i = Some V /\ nth_error (ex_Fs e) i = Some F /\ nth_error (ex_regions e) i = Some r /\ nth_error (ex_Cs e) i = Some c.
(** all per-cell arrays have one entry per cell, and faces index the vertices of their cell *)
Record ex_ok (e : exploder) : Prop := {
  eo_F : length (ex_Fs e) = length (ex_Vs e);
  eo_r : length (ex_regions e) = length (ex_Vs e);
  eo_C : length (ex_Cs e) = length (ex_Vs e);
  eo_in : forall i V F r c a b d, excell e i V F r c -> In (a, b, d) F -> 0 <= a < Z.of_nat (length V) /\ 0 <= b < Z.of_nat (length V) /\ 0 <= d < Z.of_nat (length V) }.
(** the moved position of a vertex *)
Definition moved (s : Qc) (c v : q3) : q3 := qadd3 v (qscale3 (s - 1) c).

Lemma qadd3_cancel (v o w : q3) : qadd3 (qadd3 (qsub3 v o) w) o = qadd3 v w.
Proof. destruct v as ((a & b) & c), o as ((x & y) & z), w as ((p & q) & r). cbn. f_equal; [f_equal|]; ring. Qed.
Lemma valid_shown r used : valid_region r used = true <-> shown used r.
Proof.
  unfold valid_region, shown. destruct used as [|u l]; [split; auto|]. rewrite existsb_exists. split.
  - intros (x & H & E). apply Z.eqb_eq in E as ->. auto.
  - intros [[=]|H]. exists r. rewrite Z.eqb_refl. auto.
Qed.
(** prefix sums *)
Definition vsz (used : list Z) (p : list q3 * Z) : Z := if valid_region (snd p) used then Z.of_nat (length (fst p)) else 0.
Fixpoint psum (used : list Z) (l : list (list q3 * Z)) : Z := match l with [] => 0 | p :: t => vsz used p + psum used t end.
Lemma offsets_nth e used i : (i <= length (combine (ex_Vs e) (ex_regions e)))%nat -> nth_error (offsets e used) i = Some (psum used (firstn i (combine (ex_Vs e) (ex_regions e)))).
Proof.
  unfold offsets. generalize (combine (ex_Vs e) (ex_regions e)) as l. intros l.
  assert (G : forall l off acc, snd (fold_left (fun '(off, acc) '(v, r) => let off' := if valid_region r used then off + Z.of_nat (length (v : list q3)) else off in (off', off' :: acc)) l (off, acc))
    = rev (map (fun k => off + psum used (firstn (S k) l)) (seq 0 (length l))) ++ acc).
  { clear. induction l as [|[v r] l IH]; intros off acc; cbn [fold_left length seq map rev app snd]; auto. rewrite IH. rewrite <- seq_shift, map_map. rewrite <- app_assoc. cbn [app]. cbn [firstn psum vsz fst snd].
    assert (E0 : off + ((if valid_region r used then Z.of_nat (length v) else 0) + 0) = (if valid_region r used then off + Z.of_nat (length v) else off)) by (destruct (valid_region r used); lia).
    unfold vsz. cbn [fst snd]. cbn [psum]. rewrite E0. f_equal. f_equal. apply map_ext. intros k. cbn [firstn psum]. unfold vsz. cbn [fst snd]. destruct (valid_region r used); lia. }
  rewrite G, rev_app_distr, rev_involutive. cbn [rev app]. intros Hi. destruct i as [|i]; [reflexivity|]. cbn [nth_error]. rewrite nth_error_map.
  assert (E : nth_error (seq 0 (length l)) i = Some i). { rewrite (nth_error_nth' _ 0%nat) by (rewrite seq_length; lia). rewrite seq_nth by lia. auto. }
  rewrite E. cbn [option_map]. f_equal. 
Qed.
Lemma offsets_length e used : length (offsets e used) = S (length (combine (ex_Vs e) (ex_regions e))).
Proof.
  unfold offsets. rewrite rev_length. assert (G : forall l (off : Z) (acc : list Z), length (snd (fold_left (fun '(off, acc) '(v, r) => let off' := if valid_region r used then off + Z.of_nat (length (v : list q3)) else off in (off', off' :: acc)) l (off, acc))) = (length l + length acc)%nat).
  { induction l as [|[v r] l IH]; intros off acc; cbn [fold_left length]; auto. rewrite IH. cbn. lia. }
  rewrite G. cbn. lia.
Qed.
(** what the selection shows: for every cell in order, something computed from its index and data *)
Definition per_cell (A : Type) (e : exploder) (used : list Z) (g : nat -> list q3 -> list c3 -> q3 -> list A) : list A :=
  flat_map (fun i => match nth_error (ex_Vs e) i, nth_error (ex_Fs e) i, nth_error (ex_regions e) i, nth_error (ex_Cs e) i with
    | Some V, Some F, Some r, Some c => if in_dec Z.eq_dec r used then g i V F c else match used with [] => g i V F c | _ => [] end
    | _, _, _, _ => [] end) (seq 0 (length (ex_Vs e))).
Arguments per_cell {A} e used g.
Lemma flat_map_split (A B : Type) (g : A -> list B) l i x a : nth_error l i = Some x -> (a < length (g x))%nat -> nth_error (flat_map g l) (length (flat_map g (firstn i l)) + a) = nth_error (g x) a.
Proof.
  revert i. induction l as [|y l IH]; intros [|i]; cbn; try discriminate.
  - intros [= ->] H. rewrite nth_error_app1; auto.
  - intros H1 H2. rewrite app_length, nth_error_app2 by lia. rewrite <- (IH i H1 H2). f_equal. lia.
Qed.
Lemma firstn_snoc (A : Type) (l : list A) : forall i x, nth_error l i = Some x -> firstn (S i) l = firstn i l ++ [x].
Proof. induction l as [|y l IH]; intros [|i] x; cbn; try discriminate; [intros [= ->]; auto|]. intros H. rewrite <- (IH i x H). auto. Qed.
Lemma psum_app used a b : psum used (a ++ b) = psum used a + psum used b.
Proof. induction a as [|p a IH]; cbn; auto. rewrite IH. lia. Qed.
Lemma nth_error_combine (A B : Type) (l : list A) : forall (m : list B) i x y, nth_error l i = Some x -> nth_error m i = Some y -> nth_error (combine l m) i = Some (x, y).
Proof. induction l as [|a l IH]; intros [|b m] [|i] x y; cbn; try discriminate; auto. congruence. Qed.
Lemma nth_error_seq n i : (i < n)%nat -> nth_error (seq 0 n) i = Some i.
Proof. intros H. rewrite (nth_error_nth' _ 0%nat) by (rewrite seq_length; lia). rewrite seq_nth by lia. auto. Qed.
Section E.
  Variable e : exploder.
  Hypothesis OK : ex_ok e.
  Variable used : list Z.
  Let n := length (ex_Vs e).
  Lemma excell_ex i : (i < n)%nat -> exists V F r c, excell e i V F r c.
  Proof.
    destruct OK as [H1 H2 H3 _]. intros H. unfold excell. destruct (nth_error (ex_Vs e) i) as [V|] eqn:EV; [|apply nth_error_None in EV; unfold n in H; lia]. destruct (nth_error (ex_Fs e) i) as [F|] eqn:EF; [|apply nth_error_None in EF; unfold n in H; lia].
    destruct (nth_error (ex_regions e) i) as [r|] eqn:ER; [|apply nth_error_None in ER; unfold n in H; lia]. destruct (nth_error (ex_Cs e) i) as [c|] eqn:EC; [|apply nth_error_None in EC; unfold n in H; lia]. exists V, F, r, c. auto.
  Qed.
  Lemma excell_lt i V F r c : excell e i V F r c -> (i < n)%nat.
  Proof. intros [H _]. apply nth_error_Some. congruence. Qed.
  Lemma per_cell_eq (A : Type) (g : nat -> list q3 -> list c3 -> q3 -> list A) (h : nat -> list A) :
    (forall i V F r c, excell e i V F r c -> h i = if valid_region r used then g i V F c else []) -> per_cell e used g = flat_map h (seq 0 n).
  Proof.
    intros H. unfold per_cell. rewrite !flat_map_concat_map. f_equal. apply map_ext_in. intros i Hi. apply in_seq in Hi. destruct (excell_ex i) as (V & F & r & c & E); [lia|]. rewrite (H _ _ _ _ _ E). destruct E as (-> & -> & -> & ->).
    unfold valid_region. destruct (in_dec Z.eq_dec r used) as [I|I], used as [|u l]; auto.
    - assert (E : existsb (Z.eqb r) (u :: l) = true) by (apply existsb_exists; exists r; rewrite Z.eqb_refl; auto). rewrite E. auto.
    - destruct (existsb (Z.eqb r) (u :: l)) eqn:E; auto. apply existsb_exists in E as (x & Hx & E). apply Z.eqb_eq in E as ->. contradiction.
  Qed.
  Lemma enum_regions (A : Type) (h : nat * Z -> list A) : flat_map h (enum_nat (ex_regions e)) = flat_map (fun i => h (i, nth i (ex_regions e) 0)) (seq 0 n).
  Proof.
    unfold enum_nat. rewrite (eo_r e OK). fold n. rewrite !flat_map_concat_map. f_equal. assert (L := eo_r e OK). fold n in L.
    assert (G : forall l s, map h (combine (seq s (length l)) l) = map (fun i => h (i, nth (i - s) l 0)) (seq s (length l))).
    { induction l as [|x l IH]; intros s; cbn [length seq combine map]; auto. rewrite Nat.sub_diag. cbn [nth]. f_equal. rewrite IH. apply map_ext_in. intros k Hk. apply in_seq in Hk. replace (k - s)%nat with (S (k - S s)) by lia. auto. }
    rewrite <- L, G. apply map_ext. intros i. rewrite Nat.sub_0_r. auto.
  Qed.
  Definition cell_verts s i := if valid_region (nth i (ex_regions e) 0) used then cell_V e i s else [].
  Lemma mesh_V_eq s : mesh_V e s used = flat_map (cell_verts s) (seq 0 n).
  Proof. unfold mesh_V. rewrite (enum_regions _ (fun '(i, r) => if valid_region r used then cell_V e i s else [])). reflexivity. Qed.
  Lemma cell_V_eq i V F r c s : excell e i V F r c -> cell_V e i s = map (moved s c) V.
  Proof. intros (H1 & H2 & H3 & H4). unfold cell_V. rewrite (nth_error_nth _ _ _ H1), (nth_error_nth _ _ _ H4). apply map_ext. intros v. apply qadd3_cancel. Qed.
  Lemma cell_verts_eq i V F r c s : excell e i V F r c -> cell_verts s i = if valid_region r used then map (moved s c) V else [].
  Proof. intros H. unfold cell_verts. rewrite (cell_V_eq _ _ _ _ _ s H). destruct H as (H1 & H2 & H3 & H4). rewrite (nth_error_nth _ _ _ H3). auto. Qed.
  Lemma cells_comb i V F r c : excell e i V F r c -> nth_error (combine (ex_Vs e) (ex_regions e)) i = Some (V, r).
  Proof. intros (H1 & H2 & H3 & H4). apply nth_error_combine; auto. Qed.
  Lemma prefix_len s i : (i <= n)%nat -> Z.of_nat (length (flat_map (cell_verts s) (firstn i (seq 0 n)))) = psum used (firstn i (combine (ex_Vs e) (ex_regions e))).
  Proof.
    induction i as [|i IH]; intros H; [reflexivity|]. destruct (excell_ex i) as (V & F & r & c & E); [lia|].
    rewrite (firstn_snoc _ (seq 0 n) i i) by (apply nth_error_seq; lia). rewrite (firstn_snoc _ _ i _ (cells_comb _ _ _ _ _ E)), flat_map_app, app_length, psum_app. cbn [flat_map psum]. rewrite app_nil_r, (cell_verts_eq _ _ _ _ _ s E). unfold vsz. cbn [fst snd]. destruct (valid_region r used); [rewrite map_length|cbn [length]]; lia.
  Qed.
  Lemma comb_len : length (combine (ex_Vs e) (ex_regions e)) = n.
  Proof. rewrite combine_length, (eo_r e OK). fold n. lia. Qed.
  Lemma mesh_V_nth s i V F r c a : excell e i V F r c -> valid_region r used = true -> 0 <= a < Z.of_nat (length V) ->
    znth (mesh_V e s used) (a + psum used (firstn i (combine (ex_Vs e) (ex_regions e)))) = option_map (moved s c) (znth V a).
  Proof.
    intros E HV Ha. assert (Hi := excell_lt _ _ _ _ _ E). rewrite <- (prefix_len s) by lia. unfold znth. rewrite (proj2 (Z.leb_le 0 a)) by lia. rewrite (proj2 (Z.leb_le 0 _)) by lia.
    rewrite mesh_V_eq. replace (Z.to_nat (a + Z.of_nat (length (flat_map (cell_verts s) (firstn i (seq 0 n)))))) with (length (flat_map (cell_verts s) (firstn i (seq 0 n))) + Z.to_nat a)%nat by lia.
    assert (CV := cell_verts_eq _ _ _ _ _ s E). rewrite HV in CV. rewrite (flat_map_split _ _ _ _ i i) by (try apply nth_error_seq; try rewrite CV, map_length; lia). rewrite CV. apply nth_error_map.
  Qed.
End E.
Lemma nth_error_combine' (A B : Type) (l : list A) : forall (m : list B) i, nth_error (combine l m) i = match nth_error l i, nth_error m i with Some x, Some y => Some (x, y) | _, _ => None end.
Proof. induction l as [|a l IH]; intros [|b m] [|i]; cbn; auto. destruct (nth_error l i); auto. Qed.
Section E2.
  Variable e : exploder.
  Hypothesis OK : ex_ok e.
  Variable used : list Z.
  Let n := length (ex_Vs e).
  Let off i := psum used (firstn i (combine (ex_Vs e) (ex_regions e))).
  Definition cell_faces i := if valid_region (nth i (ex_regions e) 0) used then map (shift3 (off i)) (nth i (ex_Fs e) []) else [].
  Lemma mesh_F_eq : mesh_F e used = flat_map cell_faces (seq 0 n).
  Proof.
    unfold mesh_F. rewrite !flat_map_concat_map. f_equal.
    assert (L : combine (combine (ex_Fs e) (offsets e used)) (ex_regions e) = map (fun i => (nth i (ex_Fs e) [], off i, nth i (ex_regions e) 0)) (seq 0 n)).
    { apply nth_error_ext. intros i. rewrite !nth_error_combine', nth_error_map. destruct (Nat.lt_ge_cases i n) as [Hi|Hi].
      - destruct (excell_ex e OK i Hi) as (V & F & r & c & E1 & E2 & E3 & E4). rewrite E2, E3, offsets_nth by (rewrite comb_len by auto; fold n; lia). rewrite nth_error_seq by auto. cbn. rewrite (nth_error_nth _ _ _ E2), (nth_error_nth _ _ _ E3). auto.
      - assert (N : nth_error (ex_Fs e) i = None) by (apply nth_error_None; rewrite (eo_F e OK); auto). rewrite N. assert (N2 : nth_error (seq 0 n) i = None) by (apply nth_error_None; rewrite seq_length; auto). rewrite N2. auto. }
    rewrite L, map_map. reflexivity.
  Qed.
  Lemma cell_faces_eq i V F r c : excell e i V F r c -> cell_faces i = if valid_region r used then map (shift3 (off i)) F else [].
  Proof. intros (H1 & H2 & H3 & H4). unfold cell_faces. rewrite (nth_error_nth _ _ _ H2), (nth_error_nth _ _ _ H3). auto. Qed.
  Lemma off_succ i V F r c : excell e i V F r c -> off (S i) = off i + (if valid_region r used then Z.of_nat (length V) else 0).
  Proof. intros E. unfold off. rewrite (firstn_snoc _ _ i _ (cells_comb e _ _ _ _ _ E)), psum_app. cbn. unfold vsz. cbn [fst snd]. lia. Qed.
  Lemma off_0 : off 0 = 0.
  Proof. reflexivity. Qed.
  Lemma off_nonneg i : 0 <= off i.
  Proof. unfold off. induction (firstn i _) as [|p l IH]; cbn; [lia|]. unfold vsz. destruct (valid_region _ _); lia. Qed.
  Lemma off_mono i j : (i <= j)%nat -> (j <= n)%nat -> off i <= off j.
  Proof. intros H. induction H as [|j H IH]; intros Hj; [lia|]. destruct (excell_ex e OK j) as (V & F & r & c & E); [fold n; lia|]. rewrite (off_succ _ _ _ _ _ E). assert (off i <= off j) by (apply IH; lia). destruct (valid_region r used); lia. Qed.
  Lemma offs_nth i : (i <= n)%nat -> nth i (offsets e used) 0 = off i.
  Proof. intros H. apply nth_error_nth. rewrite offsets_nth; auto. rewrite comb_len; auto. Qed.
  Lemma offs_last : last (offsets e used) 0 = off n.
  Proof.
    assert (G : forall (l : list Z) d, last l d = nth (length l - 1) l d). { induction l as [|x [|y l] IH]; intros d; auto. change (last (x :: y :: l) d) with (last (y :: l) d). rewrite IH. cbn [length]. replace (S (S (length l)) - 1)%nat with (S (S (length l) - 1)) by lia. auto. }
    rewrite G, offsets_length, comb_len by auto. cbn [Nat.sub]. fold n. rewrite Nat.sub_0_r. apply offs_nth. auto.
  Qed.
  Definition cell_cols (A : Type) (cc : nat -> A) i := repeat (Some (cc i)) (Z.to_nat (off (S i) - off i)).
  Lemma cols_len (A : Type) (cc : nat -> A) k : (k <= n)%nat -> length (flat_map (cell_cols _ cc) (seq 0 k)) = Z.to_nat (off k).
  Proof.
    induction k as [|k IH]; intros H; [reflexivity|]. rewrite seq_S, flat_map_app, app_length, IH by lia. cbn [flat_map Nat.add]. rewrite app_nil_r. unfold cell_cols. rewrite repeat_length. assert (off k <= off (S k)) by (apply off_mono; lia). assert (HN := off_nonneg k). lia.
  Qed.
  Lemma colors_eq (A : Type) (cc : nat -> A) : colors e cc used = flat_map (cell_cols _ cc) (seq 0 n).
  Proof.
    unfold colors. rewrite offs_last. fold n. set (step := fun C i => _).
    assert (G : forall k, (k <= n)%nat -> fold_left step (seq 0 k) (repeat None (Z.to_nat (off n))) = flat_map (cell_cols _ cc) (seq 0 k) ++ repeat None (Z.to_nat (off n - off k))).
    { induction k as [|k IH]; intros H; [cbn [seq fold_left flat_map app]; rewrite off_0, Z.sub_0_r; auto|]. rewrite seq_S, fold_left_app, IH by lia. cbn [fold_left Nat.add]. rewrite flat_map_app. cbn [flat_map]. rewrite app_nil_r. unfold step at 1. rewrite !offs_nth by lia.
      assert (M1 := off_mono k (S k) ltac:(lia) H). assert (M2 := off_mono (S k) n H ltac:(lia)). assert (M0 := off_nonneg k). assert (CK : cell_cols _ cc k = repeat (Some (cc k)) (Z.to_nat (off (S k) - off k))) by reflexivity. rewrite CK. clear CK.
      destruct (0 <? off (S k) - off k) eqn:E.
      - unfold write_block. assert (L := cols_len _ cc k ltac:(lia)).
        rewrite <- L at 1. rewrite firstn_app, Nat.sub_diag, firstn_all, firstn_O, app_nil_r. rewrite <- app_assoc. f_equal. f_equal. rewrite skipn_app, skipn_all2 by lia. cbn [app].
        replace (Z.to_nat (off n - off k)) with (Z.to_nat (off (S k) - off k) + Z.to_nat (off n - off (S k)))%nat by lia. rewrite repeat_app, skipn_app, skipn_all2 by (rewrite repeat_length; lia). rewrite repeat_length. cbn [app].
        replace (Z.to_nat (off k) + Z.to_nat (off (S k) - off k) - length (flat_map (cell_cols _ cc) (seq 0 k)) - Z.to_nat (off (S k) - off k))%nat with 0%nat by lia. reflexivity.
      - assert (Z0 : off (S k) = off k) by lia. rewrite Z0, Z.sub_diag. cbn [Z.to_nat repeat]. rewrite app_nil_r. auto. }
    rewrite (G n ltac:(lia)), Z.sub_diag. cbn [Z.to_nat repeat]. apply app_nil_r.
  Qed.
End E2.

(** C48 *)
(** the vertices are those of the shown cells, cell after cell, each moved by (scale - 1) times the centre of its cell *)
Theorem c48_vertices : forall e s used, ex_ok e -> mesh_V e s used = per_cell e used (fun _ V _ c => map (moved s c) V).
Proof. intros e s used OK. rewrite mesh_V_eq by auto. symmetry. apply per_cell_eq; auto. intros i V F r c E. exact (cell_verts_eq e used i V F r c s E). Qed.
(** corner a' of the shown mesh is the moved vertex a of cell i *)
Definition corner_of (e : exploder) (s : Qc) (used : list Z) (i : nat) (a a' : Z) : Prop :=
  exists V F r c v, excell e i V F r c /\ shown used r /\ znth V a = Some v /\ znth (mesh_V e s used) a' = Some (moved s c v).
(** the faces are those of the shown cells, in order, and each corner is the moved vertex of its own cell *)
Theorem c48_faces : forall e s used, ex_ok e ->
  Forall2 (fun '(i, (a, b, d)) '(a', b', d') => corner_of e s used i a a' /\ corner_of e s used i b b' /\ corner_of e s used i d d')
    (per_cell e used (fun i _ F _ => map (pair i) F)) (mesh_F e used).
Proof.
  intros e s used OK. rewrite mesh_F_eq by auto. set (h := fun i => if valid_region (nth i (ex_regions e) 0) used then map (pair i) (nth i (ex_Fs e) []) else []).
  rewrite (per_cell_eq e OK used _ _ h). 2:{ intros i V F r c (H1 & H2 & H3 & H4). unfold h. rewrite (nth_error_nth _ _ _ H2), (nth_error_nth _ _ _ H3). auto. }
  assert (G : forall l, (forall i, In i l -> (i < length (ex_Vs e))%nat) -> Forall2 (fun '(i, (a, b, d)) '(a', b', d') => corner_of e s used i a a' /\ corner_of e s used i b b' /\ corner_of e s used i d d') (flat_map h l) (flat_map (cell_faces e used) l)).
  { induction l as [|i l IH]; intros Hl; cbn [flat_map]; [constructor|]. apply Forall2_app; [|apply IH; intros; apply Hl; cbn; auto].
    destruct (excell_ex e OK i) as (V & F & r & c & E); [apply Hl; cbn; auto|]. rewrite (cell_faces_eq e used i V F r c E). assert (Eh : h i = if valid_region r used then map (pair i) F else []). { destruct E as (H1 & H2 & H3 & H4). unfold h. rewrite (nth_error_nth _ _ _ H2), (nth_error_nth _ _ _ H3). auto. }
    rewrite Eh. destruct (valid_region r used) eqn:HV; [|constructor]. assert (B := fun a b d => eo_in e OK i V F r c a b d E).
    assert (K : forall a, 0 <= a < Z.of_nat (length V) -> corner_of e s used i a (a + psum used (firstn i (combine (ex_Vs e) (ex_regions e))))).
    { intros a Ha. destruct (znth V a) as [v|] eqn:Ev. 2:{ exfalso. unfold znth in Ev. rewrite (proj2 (Z.leb_le 0 a)) in Ev by lia. apply nth_error_None in Ev. lia. } exists V, F, r, c, v. split; auto. split; [apply valid_shown; auto|]. split; auto. rewrite (mesh_V_nth e OK used s i V F r c a E HV Ha), Ev. auto. }
    clear Eh Hl IH E. induction F as [|[[a b] d] F IHF]; cbn [map]; constructor; [|apply IHF; intros; apply B; cbn; auto]. destruct (B a b d) as (B1 & B2 & B3); [cbn; auto|]. cbn [shift3]. auto. }
  apply G. intros i Hi. apply in_seq in Hi. lia.
Qed.
(** at scale 1 nothing moves *)
Theorem c48_scale_one : forall e used, ex_ok e -> mesh_V e 1%Qc used = per_cell e used (fun _ V _ _ => V).
Proof.
  intros e used OK. rewrite c48_vertices by auto. unfold per_cell. rewrite !flat_map_concat_map. f_equal. apply map_ext. intros i. destruct (nth_error (ex_Vs e) i) as [V|]; auto. destruct (nth_error (ex_Fs e) i); auto. destruct (nth_error (ex_regions e) i); auto. destruct (nth_error (ex_Cs e) i) as [c|]; auto.
  assert (E : map (moved 1 c) V = V). { rewrite <- (map_id V) at 2. apply map_ext. intros ((x1 & y1) & z1). destruct c as ((u & v) & w). unfold moved. cbn. f_equal; [f_equal|]; ring. } rewrite E. auto.
Qed.
(** one colour per shown vertex, that of its cell; no entry is left uninitialised *)
Theorem c48_colors : forall (A : Type) e (cc : nat -> A) used, ex_ok e -> colors e cc used = per_cell e used (fun i V _ _ => map (fun _ => Some (cc i)) V).
Proof.
  intros A e cc used OK. rewrite colors_eq by auto. symmetry. apply per_cell_eq; auto. intros i V F r c E. unfold cell_cols. rewrite (off_succ e used i V F r c E).
  replace (psum used (firstn i (combine (ex_Vs e) (ex_regions e))) + (if valid_region r used then Z.of_nat (length V) else 0) - psum used (firstn i (combine (ex_Vs e) (ex_regions e)))) with (if valid_region r used then Z.of_nat (length V) else 0) by lia.
  destruct (valid_region r used); [rewrite Nat2Z.id|reflexivity]. clear. induction V as [|v V IH]; cbn; [auto|f_equal; auto].
Qed.
(** centres interpolate between the grid centre (0) and the region centroid (1) *)
Theorem c48_centers : forall e s i rc gc, nth_error (ex_RCs e) i = Some rc -> nth_error (ex_GCs e) i = Some gc ->
  nth_error (ex_Cs (set_centers s e)) i = Some (qadd3 gc (qscale3 s (qsub3 rc gc))).
Proof.
  intros e s i rc gc H1 H2. unfold set_centers. cbn [ex_Cs]. rewrite nth_error_map, nth_error_combine', H1, H2. cbn [option_map]. f_equal. destruct rc as ((x & y) & z), gc as ((u & v) & w). cbn. f_equal; [f_equal|]; ring.
Qed.
(** Example: three cells, the middle one hidden *)
Definition ex_e : exploder := mkEx [[(0, 0, 0); (1, 0, 0); (0, 1, 0)]; [(1, 0, 0)]; [(0, 0, 1); (1, 0, 1); (0, 1, 1)]]%Qc [[(0, 1, 2)]; []; [(2, 1, 0); (0, 2, 1)]] [0; 1; 0] [] [] [(1, 0, 0); (0, 1, 0); (0, 0, 1)]%Qc (0, 0, 0)%Qc.
Example c48_ok : ex_ok ex_e.
Proof.
  constructor; auto. intros i V F r c a b d (H1 & H2 & _) H. destruct i as [|[|[|i]]]; cbn in H1, H2; try (destruct i; discriminate); inversion H1; inversion H2; subst; cbn in *; repeat (destruct H as [[= <- <- <-]|H]; [lia|]); destruct H.
Qed.
Example c48_ex : mesh_F ex_e [0] = [(0, 1, 2); (5, 4, 3); (3, 5, 4)] /\ mesh_F ex_e [] = [(0, 1, 2); (6, 5, 4); (4, 6, 5)] /\ colors ex_e (fun i => i) [0] = map Some [0; 0; 0; 2; 2; 2]%nat.
Proof. repeat split. Qed.
