(** C95-C98: triangulations of cut faces (model: Triangulate.v) *)
From Verif Require Import Base Num SmallestEdge AdaptiveGrid Mesh Sparse Volume VolumeProofs PropsVolume Queries3 PropsQueries3 PropsExploder Triangulate.
From Coq Require Import Permutation.
Set Implicit Arguments.
Local Open Scope Z_scope.

(** ** Specification *)
(** the directed sides of a closed loop *)
Definition cyc_pairs (A : Type) (l : list A) : list (A * A) := match l with [] => [] | x :: t => combine l (t ++ [x]) end.
(** corners of a triangle in a table of positions *)
Definition corner_at (A : Type) (V : list A) (i : Z) : option A := if i <? 0 then None else nth_error V (Z.to_nat i).
Definition corners_at (A : Type) (V : list A) (t : c3) : option A * option A * option A := let '(a, b, c) := t in (corner_at V a, corner_at V b, corner_at V c).
Definition in_table (A : Type) (V : list A) (i : Z) : Prop := 0 <= i < Z.of_nat (length V).
Definition tri_in_table (A : Type) (V : list A) (t : c3) : Prop := let '(a, b, c) := t in in_table V a /\ in_table V b /\ in_table V c.

Lemma col_corner (A : Type) (V : list A) i : col V i = corner_at V i. Proof. reflexivity. Qed.
Lemma corner_some (A : Type) (V : list A) i : in_table V i <-> corner_at V i <> None.
Proof.
  unfold in_table, corner_at. destruct (Z.ltb_spec i 0).
  - split; [lia|congruence].
  - rewrite nth_error_Some. lia.
Qed.
Lemma cyc_nth (l : list Z) : cyc_pairs l = map (fun i => (nth i l 0, nth (Nat.modulo (i + 1) (length l)) l 0)) (seq 0 (length l)).
Proof.
  destruct l as [|x t]; [reflexivity|]. apply nth_error_ext. intros i. unfold cyc_pairs.
  rewrite nth_error_combine'. destruct (Nat.lt_ge_cases i (length (x :: t))) as [H|H].
  - rewrite nth_error_map. assert (E : nth_error (seq 0 (length (x :: t))) i = Some i). { rewrite (nth_error_nth' _ O) by (rewrite List.seq_length; auto). rewrite seq_nth; auto. }
    rewrite E. cbn [option_map]. rewrite (nth_error_nth' (x :: t) 0 H).
    assert (L : length (t ++ [x]) = length (x :: t)) by (rewrite app_length; cbn; lia).
    rewrite (nth_error_nth' (t ++ [x]) 0) by lia. do 2 f_equal.
    cbn [length] in *. destruct (Nat.eq_dec i (length t)) as [->|N].
    + rewrite Nat.add_1_r, Nat.mod_same by lia. rewrite app_nth2 by lia. rewrite Nat.sub_diag. reflexivity.
    + rewrite Nat.mod_small by lia. rewrite Nat.add_1_r. cbn [nth]. rewrite app_nth1 by lia. reflexivity.
  - assert (E : nth_error (x :: t) i = None) by (apply nth_error_None; auto). rewrite E. symmetry. apply nth_error_None. rewrite map_length, List.seq_length. auto.
Qed.
Lemma used_In loops v : In v (used_vertices loops) <-> exists l, In l loops /\ In v l.
Proof. unfold used_vertices. rewrite (set_of_list_In Zcompare_total). rewrite in_concat. split; intros (l & A & B); exists l; auto. Qed.
Lemma used_NoDup loops : NoDup (used_vertices loops).
Proof. apply (set_of_list_NoDup Zcompare_total). Qed.
Lemma keys_combine (A B : Type) (u : list A) : forall (z : list B), length u = length z -> keys (combine u z) = u.
Proof. induction u as [|a u IH]; intros [|b z]; cbn; intros H; try lia; auto. f_equal. apply IH. lia. Qed.
Lemma zseq_length n : 0 <= n -> length (zseq n) = Z.to_nat n.
Proof. intros. unfold zseq. rewrite map_length, List.seq_length. auto. Qed.
Lemma zseq_nth n k : (k < Z.to_nat n)%nat -> nth_error (zseq n) k = Some (Z.of_nat k).
Proof. intros H. unfold zseq. rewrite nth_error_map. rewrite (nth_error_nth' _ O) by (rewrite List.seq_length; auto). rewrite seq_nth by auto. reflexivity. Qed.
Lemma zseq_sorted n : ssorted Z.compare (zseq n).
Proof.
  unfold zseq. generalize (Z.to_nat n). intros k. generalize O. induction k as [|k IH]; intros s; cbn [seq map]; constructor; auto.
  apply Forall_forall. intros x I. apply in_map_iff in I as (y & <- & I). apply in_seq in I. apply Z.compare_lt_iff. lia.
Qed.
Lemma rei_at loops k v : nth_error (used_vertices loops) k = Some v -> map_at (reindexer loops) v = Z.of_nat k.
Proof.
  intros H. unfold map_at, reindexer. set (u := used_vertices loops) in *. assert (K : (k < length u)%nat) by (apply nth_error_Some; congruence).
  assert (E : map_find Z.compare v (combine u (zseq (Z.of_nat (length u)))) = Some (Z.of_nat k)).
  { apply (map_find_Some Zcompare_total).
    - rewrite keys_combine by (rewrite zseq_length; lia). apply (set_of_list_sorted Zcompare_total).
    - apply (nth_error_In _ k). rewrite nth_error_combine', H, zseq_nth by lia. reflexivity. }
  rewrite E. reflexivity.
Qed.
Lemma unre_find loops f : map_find Z.compare f (unreindexer loops) = corner_at (used_vertices loops) f.
Proof.
  unfold unreindexer. set (u := used_vertices loops).
  assert (S : ssorted Z.compare (keys (combine (zseq (Z.of_nat (length u))) u))) by (rewrite keys_combine by (rewrite zseq_length; lia); apply zseq_sorted).
  destruct (corner_at u f) as [v|] eqn:E.
  - apply (map_find_Some Zcompare_total _ _ _ S). unfold corner_at in E. destruct (Z.ltb_spec f 0); [discriminate|].
    apply (nth_error_In _ (Z.to_nat f)). rewrite nth_error_combine', E, zseq_nth by (rewrite Nat2Z.id; apply nth_error_Some; congruence). rewrite Z2Nat.id by auto. reflexivity.
  - apply (map_find_None Zcompare_total _ _ S). rewrite keys_combine by (rewrite zseq_length; lia). rewrite zseq_in. intros I. assert (N : corner_at u f <> None) by (apply corner_some; exact I). auto.
Qed.

(** ** C95: faces with several loops are triangulated with the face's own vertices *)
(** what the Triangle library is given: every vertex of the face once, and exactly the sides of its loops *)
Theorem c95_input V loops P E : tri_input V loops = Some (P, E) ->
  (exists u, NoDup u /\ (forall v, In v u <-> exists l, In l loops /\ In v l) /\ Forall2 (fun v p => corner_at V v = Some p) u P) /\
  map (fun e => (corner_at P (fst e), corner_at P (snd e))) E = flat_map (fun l => map (fun e => (corner_at V (fst e), corner_at V (snd e))) (cyc_pairs l)) loops.
Proof.
  unfold tri_input. intros H. destruct (sequence (map (col V) (used_vertices loops))) as [P'|] eqn:S; [|discriminate]. cbn in H. apply Some_inj in H. apply pair_equal_spec in H as [<- <-].
  apply seq_length in S as (L & S). rewrite map_length in L.
  assert (PV : forall k v, nth_error (used_vertices loops) k = Some v -> corner_at V v = nth_error P' k /\ nth_error P' k <> None).
  { intros k v K. specialize (S k). rewrite nth_error_map, K in S. cbn in S. destruct (nth_error P' k) as [p|]; cbn in S; [|discriminate]. apply Some_inj in S. split; auto. discriminate. }
  split.
  - exists (used_vertices loops). split; [apply used_NoDup|]. split; [intros v; apply used_In|]. clear - L PV. revert L PV. generalize (used_vertices loops). intros u. revert P'. induction u as [|v u IH]; intros [|p P]; cbn [length]; intros L PV; try discriminate; constructor.
    + destruct (PV O v eq_refl) as [E _]. exact E.
    + apply IH; [lia|]. intros k w K. apply (PV (S k) w K).
  - assert (G : forall v, (exists l, In l loops /\ In v l) -> corner_at P' (map_at (reindexer loops) v) = corner_at V v).
    { intros v I. apply used_In in I. apply In_nth_error in I as (k & K). rewrite (rei_at _ _ K). destruct (PV k v K) as [-> _]. unfold corner_at. destruct (Z.ltb_spec (Z.of_nat k) 0); [lia|]. rewrite Nat2Z.id. reflexivity. }
    rewrite flat_map_concat_map, concat_map, map_map, flat_map_concat_map. f_equal. apply map_ext_in. intros l Il. rewrite cyc_nth. unfold curve_edges. rewrite !map_map. apply map_ext_in. intros i Ii. apply in_seq in Ii. cbn [fst snd].
    rewrite !G; auto; exists l; (split; [auto|]); apply nth_In; [apply Nat.mod_upper_bound|]; lia.
Qed.
(** the centre of a triangle of the table P, and whether the loops wind around a point *)
Definition centre (P : list q2) (t : c3) : q2 :=
  let '(a, b, c) := t in let p i := nth (Z.to_nat i) P (0%Qc, 0%Qc) in
  (((fst (p a) + fst (p b) + fst (p c)) / Z2Qc 3)%Qc, ((snd (p a) + snd (p b) + snd (p c)) / Z2Qc 3)%Qc).
Definition winds_around (wn : list q2 -> list Z -> q2 -> Qc) (V : list q2) (loops : list (list Z)) (p : q2) : bool :=
  if Qclt_le_dec (Q2Qc (1 # 2)) (qabs (lsum (fun l => wn V l p) loops)) then true else false.
(** the triangles inside the face, all of them if there is none *)
Definition interior_triangles (wn : list q2 -> list Z -> q2 -> Qc) (V : list q2) (loops : list (list Z)) (P : list q2) (F : list c3) : list c3 :=
  match filter (fun t => winds_around wn V loops (centre P t)) F with [] => F | F' => F' end.

Lemma inside_spec X V loops B : inside X V loops B = winds_around (te_wn X) V loops B.
Proof.
  unfold inside, winds_around. assert (E : fold_left (fun w c => (w + te_wn X V c B)%Qc) loops 0%Qc = lsum (fun l => te_wn X V l B) loops).
  { assert (G : forall a, fold_left (fun w c => (w + te_wn X V c B)%Qc) loops a = (a + lsum (fun l => te_wn X V l B) loops)%Qc).
    { induction loops as [|l loops IH]; intros a; cbn [fold_left lsum]; [ring|]. rewrite IH. ring. }
    rewrite G. ring. }
  rewrite E. change qhalf with (Q2Qc (1 # 2)). destruct (Qclt_le_dec _ _) as [H|H]; [apply qltb_lt; auto|].
  destruct (qltb _ _) eqn:Q; auto. apply qltb_lt in Q. exfalso. revert H. apply Qclt_not_le. exact Q.
Qed.
Lemma corner_nth (A : Type) (P : list A) i d : in_table P i -> corner_at P i = Some (nth (Z.to_nat i) P d).
Proof. unfold in_table, corner_at. intros H. destruct (Z.ltb_spec i 0); [lia|]. apply nth_error_nth'. lia. Qed.
Lemma bary_centre P t : tri_in_table P t -> tri_bary P t = Some (centre P t).
Proof.
  destruct t as ((a & b) & c). intros (Ha & Hb & Hc). unfold tri_bary, tri_cols. change (@col q2) with (@corner_at q2). rewrite (@corner_nth q2 P _ (0, 0)%Qc Ha), (@corner_nth q2 P _ (0, 0)%Qc Hb), (@corner_nth q2 P _ (0, 0)%Qc Hc). reflexivity.
Qed.
Lemma combine_maps (A B C : Type) (f : A -> B) (g : A -> C) l : combine (map f l) (map g l) = map (fun x => (f x, g x)) l.
Proof. induction l; cbn; congruence. Qed.
Lemma filter_map_fst (A B C : Type) (f : A -> B) (g : A -> C) (p : C -> bool) l :
  map fst (filter (fun tb => p (snd tb)) (map (fun x => (f x, g x)) l)) = map f (filter (fun x => p (g x)) l).
Proof. induction l as [|x l IH]; cbn; auto. destruct (p (g x)); cbn; congruence. Qed.
Lemma sequence_all (A B : Type) (f : A -> option B) (g : A -> B) l : (forall a, In a l -> f a = Some (g a)) -> sequence (map f l) = Some (map g l).
Proof. induction l as [|a l IH]; intros H; cbn; auto. rewrite H by (cbn; auto). cbn. rewrite IH by (intros; apply H; cbn; auto). reflexivity. Qed.
Lemma kept_map (f : c3 -> c3) (p : c3 -> bool) nF : match map f (filter p nF) with [] => map f nF | _ :: _ => map f (filter p nF) end = map f (match filter p nF with [] => nF | x => x end).
Proof. destruct (filter p nF); reflexivity. Qed.
Lemma tri_input_table V loops P E : tri_input V loops = Some (P, E) -> length P = length (used_vertices loops) /\ forall k v, nth_error (used_vertices loops) k = Some v -> corner_at V v = nth_error P k.
Proof.
  unfold tri_input. intros H. destruct (sequence (map (col V) (used_vertices loops))) as [P'|] eqn:S; [|discriminate]. cbn in H. apply Some_inj in H. apply pair_equal_spec in H as [<- _].
  apply seq_length in S as (L & S). rewrite map_length in L. split; auto.
  intros k v K. specialize (S k). rewrite nth_error_map, K in S. cbn in S. destruct (nth_error P' k) as [p|]; cbn in S; [|discriminate]. apply Some_inj in S. auto.
Qed.

(** when no points are added: the triangles kept are those inside the face, on the face's own vertices *)
Theorem c95_triangles X V loops axis coord add P E nV nF :
  tri_input V loops = Some (P, E) -> te_tri X P E = (nV, nF) ->
  (length nV <= length P)%nat -> Forall (tri_in_table P) nF -> nF <> [] ->
  exists T, triangulate_triangle X V loops axis coord add = Some ([], T) /\
    map (corners_at V) T = map (corners_at P) (interior_triangles (te_wn X) V loops P nF) /\
    Forall (fun t => let '(a, b, c) := t in forall v, In v [a; b; c] -> exists l, In l loops /\ In v l) T.
Proof.
  intros HI HT HL HF HN. destruct (@tri_input_table _ _ _ _ HI) as (PL & PV). unfold triangulate_triangle.
  destruct (used_vertices loops) as [|u0 us] eqn:EU.
  { exfalso. destruct nF as [|t nF]; [congruence|]. inversion HF as [|? ? Ht]; subst. destruct t as ((a & b) & c). destruct Ht as (Ha & _). unfold in_table in Ha. rewrite PL in Ha. cbn in Ha. lia. }
  rewrite <- EU in *. rewrite HI, HT.
  assert (M : (length P <? length nV)%nat = false) by (apply Nat.ltb_ge; auto). rewrite M, Bool.andb_false_r. cbn [orb].
  assert (known : forall f, in_table P f -> exists v, map_find Z.compare f (unreindexer loops) = Some v /\ corner_at V v = corner_at P f /\ In v (used_vertices loops)).
  { intros f Hf. rewrite unre_find. assert (K : in_table (used_vertices loops) f) by (unfold in_table in *; lia). rewrite (corner_nth 0 K). eexists. split; [reflexivity|]. split; [|apply nth_In; unfold in_table in K; lia].
    rewrite (PV (Z.to_nat f)); [|apply nth_error_nth'; unfold in_table in K; lia]. unfold corner_at. destruct (Z.ltb_spec f 0); [unfold in_table in K; lia|]. reflexivity. }
  assert (EX : existsb (fun f => match map_find Z.compare f (unreindexer loops) with Some _ => false | None => true end) (tri_entries nF) = false).
  { apply Bool.not_true_iff_false. intros EX. apply existsb_exists in EX as (f & If & Hf). unfold tri_entries in If. apply in_flat_map in If as (((a & b) & c) & It & If). rewrite Forall_forall in HF. specialize (HF _ It). destruct HF as (Ha & Hb & Hc).
    assert (TF : in_table P f) by (cbn in If; destruct If as [<-|[<-|[<-|[]]]]; auto). destruct (known _ TF) as (v & Ev & _). rewrite Ev in Hf. discriminate. }
  rewrite EX. set (g := tri_map (map_at (unreindexer loops))).
  assert (C : forall t, In t nF -> corners_at V (g t) = corners_at P t).
  { intros ((a & b) & c) It. rewrite Forall_forall in HF. destruct (HF _ It) as (Ha & Hb & Hc). cbn. unfold map_at. destruct (known _ Ha) as (va & -> & Ea & _), (known _ Hb) as (vb & -> & Eb & _), (known _ Hc) as (vc & -> & Ec & _). congruence. }
  rewrite map_map. rewrite (@sequence_all _ _ _ (centre P)).
  2: { intros ((a & b) & c) It. rewrite <- bary_centre by (rewrite Forall_forall in HF; auto). specialize (C _ It). unfold corners_at in C. cbn in C. unfold tri_bary, tri_cols, g. cbn [tri_map]. change (@col q2) with (@corner_at q2). apply pair_equal_spec in C as [C C3]. apply pair_equal_spec in C as [C1 C2]. rewrite C1, C2, C3. reflexivity. }
  rewrite combine_maps. rewrite (@filter_map_fst _ _ _ g (centre P) (inside X V loops)).
  rewrite (@filter_ext _ _ (fun t => winds_around (te_wn X) V loops (centre P t))) by (intros; apply inside_spec).
  rewrite kept_map. fold (interior_triangles (te_wn X) V loops P nF). cbn [andb map sequence].
  assert (IN : forall t, In t (interior_triangles (te_wn X) V loops P nF) -> In t nF).
  { intros t. unfold interior_triangles. destruct (filter _ nF) as [|t' l] eqn:Ef; auto. rewrite <- Ef. intros I. apply filter_In in I. tauto. }
  assert (NE : interior_triangles (te_wn X) V loops P nF <> []) by (unfold interior_triangles; destruct (filter _ nF); auto; discriminate).
  destruct (interior_triangles (te_wn X) V loops P nF) as [|t0 ts] eqn:EI; [congruence|]. rewrite <- EI in *. exists (map g (interior_triangles (te_wn X) V loops P nF)).
  split; [rewrite EI; reflexivity|]. split.
  - rewrite map_map. apply map_ext_in. auto.
  - apply Forall_forall. intros t I. apply in_map_iff in I as (((a & b) & c) & <- & I). rewrite Forall_forall in HF. destruct (HF _ (IN _ I)) as (Ha & Hb & Hc). cbn. intros v [<-|[<-|[<-|[]]]]; apply used_In; unfold map_at.
    + destruct (known _ Ha) as (va & -> & _ & ?). auto.
    + destruct (known _ Hb) as (va & -> & _ & ?). auto.
    + destruct (known _ Hc) as (va & -> & _ & ?). auto.
Qed.

(** ** C96: mesh faces are triangulated by a fan *)
Lemma fan_shape l F : fan_tris l = Some F -> exists i0 i1 rest, l = i0 :: i1 :: rest /\ F = map (fun '(a, b) => (i0, a, b)) (combine (i1 :: rest) rest).
Proof. destruct l as [|i0 [|i1 rest]]; cbn [fan_tris]; try discriminate. intros H. apply Some_inj in H. eauto 6. Qed.
(** n - 2 triangles on the vertices of the loop *)
Theorem c96_fan_vertices l F : fan_tris l = Some F ->
  Z.of_nat (length F) = Z.of_nat (length l) - 2 /\ Forall (fun t => let '(a, b, c) := t in In a l /\ In b l /\ In c l) F.
Proof.
  intros H. destruct (fan_shape _ H) as (i0 & i1 & rest & -> & ->). split.
  - rewrite map_length, combine_length. cbn [length]. lia.
  - apply Forall_forall. intros t I. apply in_map_iff in I as ((a & b) & <- & I). split; [cbn; auto|]. split; [apply in_combine_l in I|apply in_combine_r in I]; cbn in *; tauto.
Qed.
(** with orientation, the sides of the fan triangles cancel except for the sides of the loop *)
Theorem c96_fan_boundary l F (g : Z -> Z -> Qc) : fan_tris l = Some F -> (forall a b, g a b = (- g b a)%Qc) ->
  lsum (fun t => let '(a, b, c) := t in (g a b + g b c + g c a)%Qc) F = lsum (fun e => g (fst e) (snd e)) (cyc_pairs l).
Proof.
  intros H AS. destruct (fan_shape _ H) as (i0 & i1 & rest & -> & ->). clear H. unfold cyc_pairs. cbn [app combine lsum fst snd]. revert i1. induction rest as [|i2 rest IH]; intros i1.
  - cbn. rewrite (AS i1 i0). ring.
  - cbn [app combine lsum map fst snd] in *. specialize (IH i2). rewrite (AS i0 i2) in IH.
    assert (E : lsum (fun t : Z * Z * Z => let '(a, b, c) := t in (g a b + g b c + g c a)%Qc) (map (fun '(a, b) => (i0, a, b)) (combine (i2 :: rest) rest)) = (- g i2 i0 + lsum (fun e => g (fst e) (snd e)) (combine (i2 :: rest) (rest ++ [i0])))%Qc) by exact IH.
    transitivity (g i0 i1 + g i1 i2 + g i2 i0 + (- g i2 i0 + lsum (fun e => g (fst e) (snd e)) (combine (i2 :: rest) (rest ++ [i0]))))%Qc; [rewrite <- E; reflexivity|].
    transitivity (g i0 i1 + (g i1 i2 + lsum (fun e => g (fst e) (snd e)) (combine (i2 :: rest) (rest ++ [i0]))))%Qc; [ring|reflexivity].
Qed.
(** so the vector area of the fan in any direction n is that of the loop *)
Corollary c96_fan_area l F (V : Z -> q3) n : fan_tris l = Some F ->
  lsum (fun t => let '(a, b, c) := t in dot n (cross (vadd (V b) (vneg (V a))) (vadd (V c) (vneg (V a))))) F = lsum (fun e => dot n (cross (V (fst e)) (V (snd e)))) (cyc_pairs l).
Proof.
  intros H. rewrite <- (@c96_fan_boundary l F (fun a b => dot n (cross (V a) (V b))) H).
  - apply lsum_ext. intros ((a & b) & c) _. destruct (V a) as ((a1 & a2) & a3), (V b) as ((b1 & b2) & b3), (V c) as ((c1 & c2) & c3), n as ((n1 & n2) & n3). cbv [dot cross vadd vneg]. ring.
  - intros a b. destruct (V a) as ((a1 & a2) & a3), (V b) as ((b1 & b2) & b3), n as ((n1 & n2) & n3). cbv [dot cross]. ring.
Qed.
(** brep_volume(V, true) of a cached fan is brep_volume(V) *)
Theorem c96_fan_volume V l F : fan_tris l = Some F -> brep_volume V [l] = Some (brep_volume_tri V F).
Proof.
  intros H. destruct (fan_shape _ H) as (i0 & i1 & rest & -> & ->). clear H. unfold brep_volume, brep_volume_tri. cbn [fold_left loop_volume oadd]. f_equal. rewrite Qcplus_0_l.
  assert (G : forall i1 a, fold_left (fun v '(a, b, c) => (v + tet0 (V a) (V b) (V c))%Qc) (map (fun '(a, b) => (i0, a, b)) (combine (i1 :: rest) rest)) a = (a + fan (V i0) (V i1) (map V rest))%Qc).
  { clear i1. induction rest as [|i2 rest IH]; intros i1 a.
    - cbn. ring.
    - change (combine (i1 :: i2 :: rest) (i2 :: rest)) with ((i1, i2) :: combine (i2 :: rest) rest). cbn [map fold_left fan]. rewrite IH. ring. }
  rewrite G. ring.
Qed.
(** caching the fan does not change the triangles solid_angle adds up *)
Theorem c96_solid_angle X V f f' : (exists k, cf_id f = MeshFace k) -> cf_tri f = None -> cf_triV f = None ->
  (exists l, cf_loops f = [l] /\ (3 <= length l)%nat) -> cache_triangulation X V true f = Some f' -> solid_angle_triangles V f' = solid_angle_triangles V f /\ cf_tri f' <> None.
Proof.
  intros (k & K) T1 T2 (l & L & N) H. unfold cache_triangulation, triangulate in H. rewrite K, L in H. cbn [triangulate_fan] in H.
  destruct (fan_tris l) as [F|] eqn:EF; [|discriminate]. cbn in H. apply Some_inj in H. subst f'. destruct (c96_fan_vertices _ EF) as (LF & _). destruct F as [|t F]; [cbn in LF; lia|].
  unfold solid_angle_triangles, set_tri. cbn [cf_tri cf_triV snd fst keep_new cf_loops]. rewrite T1, T2, L. cbn [flat_map]. rewrite EF, app_nil_r. split; auto. discriminate.
Qed.

(** ** C97: points added by the Triangle library *)
Definition coordinate (p : q3) (axis : Z) : Qc := let '(x, y, z) := p in match axis mod 3 with 0 => x | 1 => y | _ => z end.
(** w is the point of the plane [axis = coord] whose in-plane coordinates are p *)
Definition at_plane (axis coord : Z) (p : q2) (w : q3) : Prop :=
  coordinate w axis = Z2Qc coord /\ coordinate w (axis + 1) = fst p /\ coordinate w (axis + 2) = snd p.
Lemma lift_plane axis coord p w : lift axis coord p = Some w -> at_plane axis coord p w.
Proof.
  destruct p as (x & y). unfold lift. destruct axis as [|[a|[a|a|]|]|a]; try discriminate; intros H; apply Some_inj in H; subst w; unfold at_plane; cbn; auto.
Qed.
Lemma lift_some axis coord p : 0 <= axis < 3 -> exists w, lift axis coord p = Some w.
Proof. intros H. destruct p as (x & y). assert (C : axis = 0 \/ axis = 1 \/ axis = 2) by lia. destruct C as [ -> | [ -> | -> ]]; eexists; reflexivity. Qed.
Lemma sequence_forall2 (A B : Type) (f : A -> option B) l r : sequence (map f l) = Some r -> Forall2 (fun a b => f a = Some b) l r.
Proof.
  revert r. induction l as [|a l IH]; intros r; cbn; [intros E; apply Some_inj in E; subst; constructor|].
  destruct (f a) as [b|] eqn:Ea; [|discriminate]. destruct (sequence (map f l)) as [r'|]; [|discriminate]. cbn. intros E; apply Some_inj in E; subst. constructor; auto.
Qed.
Lemma Forall2_imp (A B : Type) (R S : A -> B -> Prop) l r : (forall a b, R a b -> S a b) -> Forall2 R l r -> Forall2 S l r.
Proof. induction 2; constructor; auto. Qed.
(** with vertices allowed: all the library's points come back as vertices of the face, in the face's plane, and the triangles index these vertices *)
Theorem c97_added X V loops axis coord P E nV nF :
  tri_input V loops = Some (P, E) -> te_tri X P E = (nV, nF) -> (exists l v, In l loops /\ In v l) ->
  (length P < length nV)%nat -> Forall (tri_in_table nV) nF -> nF <> [] -> 0 <= axis < 3 ->
  exists W, triangulate_triangle X V loops axis coord true = Some (W, interior_triangles (te_wn X) V loops nV nF) /\ Forall2 (at_plane axis coord) nV W.
Proof.
  intros HI HT (l0 & v0 & Il & Iv) HL HF HN HA. unfold triangulate_triangle.
  destruct (used_vertices loops) as [|u0 us] eqn:EU. { exfalso. assert (I : In v0 (used_vertices loops)) by (apply used_In; eauto). rewrite EU in I. destruct I. }
  rewrite HI, HT. assert (M : (length P <? length nV)%nat = true) by (apply Nat.ltb_lt; auto). rewrite M. cbn [andb orb negb].
  rewrite (@sequence_all _ _ _ (centre nV)) by (intros t It; apply bary_centre; rewrite Forall_forall in HF; auto).
  assert (EF : combine nF (map (centre nV) nF) = map (fun t => (t, centre nV t)) nF) by (rewrite <- combine_maps, map_id; reflexivity). rewrite EF.
  rewrite (@filter_map_fst _ _ _ (fun t => t) (centre nV) (inside X V loops)), map_id.
  rewrite (@filter_ext _ _ (fun t => winds_around (te_wn X) V loops (centre nV t))) by (intros; apply inside_spec).
  assert (EI : match filter (fun t : c3 => winds_around (te_wn X) V loops (centre nV t)) nF with [] => nF | _ :: _ => filter (fun t : c3 => winds_around (te_wn X) V loops (centre nV t)) nF end = interior_triangles (te_wn X) V loops nV nF) by (unfold interior_triangles; destruct (filter _ nF); reflexivity). rewrite EI.
  assert (NE : interior_triangles (te_wn X) V loops nV nF <> []) by (unfold interior_triangles; destruct (filter _ nF); auto; discriminate).
  destruct (@sequence_map _ _ (lift axis coord) nV) as (W & SW & FW). { intros p _ C. destruct (@lift_some axis coord p HA) as (w & Ew). congruence. }
  rewrite SW. destruct (interior_triangles (te_wn X) V loops nV nF) as [|t0 ts]; [congruence|]. exists W. split; auto. apply (@Forall2_imp _ _ (fun p w => lift axis coord p = Some w)); auto. intros p w. apply lift_plane.
Qed.
(** the solid angle of a face so cached is taken over those triangles *)
Theorem c97_solid_angle V f W T : W <> [] -> T <> [] -> Forall (tri_in_table W) T ->
  exists S, solid_angle_triangles V (set_tri f (W, T)) = Some S /\ map (fun s => let '(a, b, c) := s in (Some a, Some b, Some c)) S = map (corners_at W) T.
Proof.
  intros NW NT HT. unfold solid_angle_triangles, set_tri. cbn [cf_tri cf_triV fst snd]. destruct W as [|w W]; [congruence|]. destruct T as [|t T]; [congruence|]. cbn [keep_new].
  set (W' := w :: W) in *. set (T' := t :: T) in *. clearbody W' T'. destruct (@sequence_map _ _ (tri_cols W') T') as (S & SS & FS).
  - intros ((a & b) & c) It. rewrite Forall_forall in HT. destruct (HT _ It) as (Ha & Hb & Hc). apply corner_some in Ha, Hb, Hc. unfold tri_cols. change (@col q3) with (@corner_at q3). destruct (corner_at W' a), (corner_at W' b), (corner_at W' c); congruence.
  - exists S. split; auto. clear SS HT NT. induction FS as [|((a & b) & c) s T1 S1 H FS IH]; cbn [map]; auto. rewrite IH. f_equal. revert H. unfold tri_cols, corners_at. change (@col q3) with (@corner_at q3). destruct (corner_at W' a), (corner_at W' b), (corner_at W' c); try discriminate. intros H. apply Some_inj in H. subst s. reflexivity.
Qed.
(** REFUTED: asked not to add vertices, a result that uses an added point is not rejected: its position is looked up in an empty matrix *)
Theorem c97_no_add_refuted X V loops axis coord P E nV nF t :
  tri_input V loops = Some (P, E) -> te_tri X P E = (nV, nF) -> In t nF -> (let '(a, b, c) := t in ~ in_table P a \/ ~ in_table P b \/ ~ in_table P c) -> loops <> [] -> concat loops <> [] ->
  triangulate_triangle X V loops axis coord false = None.
Proof.
  intros HI HT It OUT _ NE. destruct (@tri_input_table _ _ _ _ HI) as (PL & PV). unfold triangulate_triangle.
  destruct (used_vertices loops) as [|u0 us] eqn:EU.
  { exfalso. destruct (concat loops) as [|v c] eqn:EC; [congruence|]. assert (I : In v (used_vertices loops)) by (unfold used_vertices; apply (set_of_list_In Zcompare_total); rewrite EC; cbn; auto). rewrite EU in I. destruct I. }
  rewrite <- EU in *. rewrite HI, HT. cbn [andb orb].
  assert (EX : existsb (fun f => match map_find Z.compare f (unreindexer loops) with Some _ => false | None => true end) (tri_entries nF) = true).
  { apply existsb_exists. destruct t as ((a & b) & c). assert (K : exists f, In f [a; b; c] /\ ~ in_table P f) by (destruct OUT as [H|[H|H]]; [exists a|exists b|exists c]; cbn; auto).
    destruct K as (f & If & Nf). exists f. split; [unfold tri_entries; apply in_flat_map; exists (a, b, c); auto|]. rewrite unre_find. destruct (corner_at (used_vertices loops) f) eqn:Ec; auto. exfalso. apply Nf. assert (IT : in_table (used_vertices loops) f) by (apply corner_some; congruence). unfold in_table in *. lia. }
  rewrite EX. assert (S : sequence (map (tri_bary []) nF) = None).
  { clear - It. induction nF as [|((a & b) & c) nF IH]; [destruct It|]. cbn [map sequence]. assert (B : tri_bary [] (a, b, c) = None). { unfold tri_bary, tri_cols, col. destruct (a <? 0); [reflexivity|]. destruct (Z.to_nat a); reflexivity. } rewrite B. reflexivity. }
  rewrite S. reflexivity.
Qed.
Lemma plane_W X V loops axis coord add W T : triangulate_triangle X V loops axis coord add = Some (W, T) -> Forall (fun w => coordinate w axis = Z2Qc coord) W.
Proof.
  unfold triangulate_triangle. destruct (used_vertices loops); [intros H; apply Some_inj in H; apply pair_equal_spec in H as [<- _]; constructor|].
  destruct (tri_input V loops) as [[P E]|]; [|discriminate]. destruct (te_tri X P E) as (nV & nF). set (nw := if add && _ then nV else []). destruct (sequence _) as [Bs|]; [|discriminate].
  destruct (_ && negb add); [intros H; apply Some_inj in H; apply pair_equal_spec in H as [<- _]; constructor|].
  destruct (match map fst _ with [] => _ | _ => _ end) as [|t ts]; [discriminate|]. destruct (sequence (map (lift axis coord) nw)) as [W'|] eqn:SW; [|discriminate]. intros H; apply Some_inj in H; apply pair_equal_spec in H as [<- _].
  apply sequence_forall2 in SW. clear - SW. induction SW as [|p w l r H F IH]; constructor; auto. apply lift_plane in H. apply H.
Qed.
(** triangulate_face returns the added vertices in the world plane of the face ... *)
Theorem c97_face_plane X m i f a c W T : corner_at (m_faces m) i = Some f -> cf_id f = AxialFace a c -> 0 <= a < 3 -> triangulate_face X m i = Some (W, T) ->
  Forall (fun w => coordinate w a = (coordinate (m_origin m) a + coordinate (m_dx m) a * Z2Qc c)%Qc) W.
Proof.
  intros Hf Hid Ha H. unfold triangulate_face in H. rewrite col_corner, Hf in H.
  assert (K : forall W0 T0, triangulate X (vertices3 m) f true = Some (W0, T0) -> Forall (fun w => coordinate w a = Z2Qc c) W0).
  { intros W0 T0. unfold triangulate. rewrite Hid. destruct (cf_loops f) as [|l1 [|l2 ls]].
    - destruct (_ && _); [apply plane_W|discriminate].
    - intros E. apply Some_inj in E. apply pair_equal_spec in E as [<- _]. constructor.
    - destruct (_ && _); [apply plane_W|discriminate]. }
  destruct (triangulate X (vertices3 m) f true) as [[W0 T0]|]; [|discriminate]. cbn in H. apply Some_inj in H. apply pair_equal_spec in H as [<- _].
  specialize (K W0 T0 eq_refl). apply Forall_map. revert K. apply Forall_impl. intros w Ew. rewrite <- Ew. unfold to_world.
  destruct w as ((x & y) & z), (m_origin m) as ((o1 & o2) & o3), (m_dx m) as ((d1 & d2) & d3). unfold vadd, vmul, coordinate. destruct (a mod 3) as [|[p|[p|p|]|]|p]; reflexivity.
Qed.
(** ... and on a grid with origin 0 and spacing 1 at the positions the library chose *)
Theorem c97_unit_grid_partial X m i f a c P E nV nF : corner_at (m_faces m) i = Some f -> cf_id f = AxialFace a c -> 0 <= a < 3 -> (2 <= length (cf_loops f))%nat ->
  m_origin m = (0, 0, 0)%Qc -> m_dx m = (1, 1, 1)%Qc ->
  tri_input (sub_V a (vertices3 m)) (cf_loops f) = Some (P, E) -> te_tri X P E = (nV, nF) -> (exists l v, In l (cf_loops f) /\ In v l) ->
  (length P < length nV)%nat -> Forall (tri_in_table nV) nF -> nF <> [] ->
  exists W, triangulate_face X m i = Some (W, interior_triangles (te_wn X) (sub_V a (vertices3 m)) (cf_loops f) nV nF) /\ Forall2 (at_plane a c) nV W.
Proof.
  intros Hf Hid Ha H2 O D HI HT HE HL HF HN. unfold triangulate_face. rewrite col_corner, Hf. unfold triangulate. rewrite Hid.
  destruct (@c97_added X (sub_V a (vertices3 m)) (cf_loops f) a c P E nV nF) as (W & EW & FW); auto.
  assert (A : (0 <=? a) && (a <? 3) = true) by (apply andb_true_iff; lia). rewrite A.
  destruct (cf_loops f) as [|l1 [|l2 ls]]; cbn [length] in H2; try lia. rewrite EW. cbn [option_map]. exists W. split; auto. do 2 f_equal.
  rewrite <- (map_id W) at 2. apply map_ext. intros ((x & y) & z). unfold to_world. rewrite O, D. unfold vadd, vmul. f_equal; [f_equal|]; ring.
Qed.

(** the in-plane coordinates used for triangulating a face: the vertex again is the point with these coordinates in its own plane *)
Theorem c95_in_plane V axis coord k p w : 0 <= axis < 3 -> corner_at (sub_V axis V) k = Some p -> corner_at V k = Some w -> coordinate w axis = Z2Qc coord -> at_plane axis coord p w.
Proof.
  unfold corner_at, sub_V. destruct (Z.ltb_spec k 0); [discriminate|]. intros HA. rewrite nth_error_map. intros Hp Hw. match type of Hp with option_map _ ?t = _ => change t with (nth_error V (Z.to_nat k)) in Hp end. rewrite Hw in Hp. cbn in Hp. destruct w as ((x & y) & z). apply Some_inj in Hp. subst p.
  assert (C : axis = 0 \/ axis = 1 \/ axis = 2) by lia. unfold at_plane. destruct C as [ -> | [ -> | -> ]]; cbn; auto.
Qed.
(** a cached face without added vertices is handed out with the world positions of its corners, in the stored orientation or, flipped, in the other one *)
Theorem c97_compact_partial m i flip f F : corner_at (m_faces m) i = Some f -> cf_tri f = Some F -> Forall (tri_in_table (vertices3 m)) F ->
  exists V T, compact_triangulated_face m i flip = Some (V, T) /\
    map (corners_at V) T = map (fun t : c3 => let '(a, b, c) := t in if flip then corners_at (vertices3 m) (b, a, c) else corners_at (vertices3 m) (a, b, c)) F /\
    (* and the cached vertices, converted from grid to world coordinates, come behind the mesh's vertices *)
    (forall W k w, cf_triV f = Some W -> corner_at W k = Some w -> exists v : q3, corner_at V (Z.of_nat (length (vertices3 m)) + k) = Some v /\
       forall a, 0 <= a < 3 -> coordinate v a = (coordinate (m_origin m) a + coordinate (m_dx m) a * coordinate w a)%Qc) /\
    (cf_triV f = None -> V = vertices3 m).
Proof.
  intros Hf HF HT. unfold compact_triangulated_face. rewrite col_corner, Hf, HF. do 2 eexists. split; [reflexivity|]. split; [|split].
  - set (W := match cf_triV f with Some _ => _ | None => _ end). assert (K : forall j, in_table (vertices3 m) j -> corner_at (vertices3 m ++ W) j = corner_at (vertices3 m) j).
    { intros j Hj. unfold in_table in Hj. unfold corner_at. destruct (Z.ltb_spec j 0); auto. apply nth_error_app1. lia. }
    rewrite Forall_forall in HT. unfold orient. destruct flip; cbn [negb].
    + rewrite map_map. apply map_ext_in. intros ((a & b) & c) I. destruct (HT _ I) as (Ha & Hb & Hc). cbn. rewrite !K by auto. reflexivity.
    + apply map_ext_in. intros ((a & b) & c) I. destruct (HT _ I) as (Ha & Hb & Hc). cbn. rewrite !K by auto. reflexivity.
  - intros W k w EW Hk. rewrite EW. exists (to_world m w). split.
    + unfold corner_at in *. destruct (Z.ltb_spec k 0); [discriminate|]. destruct (Z.ltb_spec (Z.of_nat (length (vertices3 m)) + k) 0); [lia|].
      rewrite nth_error_app2 by lia. replace (Z.to_nat (Z.of_nat (length (vertices3 m)) + k) - length (vertices3 m))%nat with (Z.to_nat k) by lia. rewrite nth_error_map, Hk. reflexivity.
    + intros a Ha. unfold to_world. destruct w as ((x & y) & z), (m_origin m) as ((o1 & o2) & o3), (m_dx m) as ((d1 & d2) & d3). unfold vadd, vmul, coordinate. destruct (a mod 3) as [|[p|[p|p|]|]|p]; reflexivity.
  - intros ->. apply app_nil_r.
Qed.

(** A face in the plane z = 0 of one cell with two crossing loops, and a library that returns the crossing point as well *)
Definition ex_mid (P : list q2) : q2 := let p i := nth i P (0%Qc, 0%Qc) in (((fst (p 0%nat) + fst (p 3%nat)) / Z2Qc 2)%Qc, ((snd (p 0%nat) + snd (p 3%nat)) / Z2Qc 2)%Qc).
Definition ex_tri : externals :=
  mkExt (fun P _ => (P ++ [ex_mid P], [(0, 1, 4); (0, 4, 2); (1, 3, 4)])) (fun _ _ => [(0, 1, 2)]) (fun _ _ _ => 1%Qc).
Definition ex_loops : list (list Z) := [[0; 2; 6]; [0; 4; 2]].
Definition ex_tmesh (o dx : q3) : mesh3 :=
  mkMesh o dx (2, 2, 2) [] [] (fun _ => true) [] [] [mkCutFace [] ex_loops (AxialFace 2 1) (0, 0, 1)%Qc None None None; mkCutFace [] [[0; 2; 6; 4]] (MeshFace 0) (0, 0, 1)%Qc None None None] [] [] [] [] [] [].
Definition unit_mesh : mesh3 := ex_tmesh (0, 0, 0)%Qc (1, 1, 1)%Qc.
Definition plane_pts (m : mesh3) : list q2 := sub_V 2 (vertices3 m).
Definition q2_this (p : option q2) : option (Q * Q) := option_map (fun p : q2 => (this (fst p), this (snd p))) p.
(** REFUTED: compact_triangulated_face looks the triangles up in the mesh's vertices followed by the added ones, although they index the added ones only *)
Theorem c97_compact_refuted : exists X m m' V T P E nV nF, m_origin m = (0, 0, 0)%Qc /\ m_dx m = (1, 1, 1)%Qc /\
  tri_input (plane_pts m) ex_loops = Some (P, E) /\ te_tri X P E = (nV, nF) /\ Forall (tri_in_table nV) nF /\
  triangulate_faces X [0; 1]%nat true m = Some m' /\ compact_triangulated_face m' 0 false = Some (V, T) /\
  map (corners_at (sub_V 2 V)) T <> map (corners_at nV) (interior_triangles (te_wn X) (plane_pts m) ex_loops nV nF).
Proof.
  exists ex_tri, unit_mesh. do 7 eexists. split; [reflexivity|]. split; [reflexivity|]. split; [reflexivity|]. split; [reflexivity|]. split; [|split; [reflexivity|split; [reflexivity|]]].
  - repeat constructor; unfold in_table; cbn; lia.
  - intros E. apply (f_equal (map (fun t => q2_this (snd t)))) in E. revert E. vm_compute. discriminate.
Qed.
(** REFUTED: the in-plane coordinates are world coordinates already when triangulate_face converts them *)
Theorem c97_world_refuted : exists X m P E nV nF W T, tri_input (plane_pts m) ex_loops = Some (P, E) /\ te_tri X P E = (nV, nF) /\ Forall (tri_in_table nV) nF /\
  triangulate_face X m 0 = Some (W, T) /\ sub_V 2 W <> nV.
Proof.
  exists ex_tri, (ex_tmesh (Z2Qc 10, 0, 0)%Qc (Z2Qc 2, 1, 1)%Qc). do 6 eexists. split; [reflexivity|]. split; [reflexivity|]. split; [|split; [reflexivity|]].
  - repeat constructor; unfold in_table; cbn; lia.
  - intros E. apply (f_equal (map (fun t => q2_this (Some t)))) in E. revert E. vm_compute. discriminate.
Qed.
(** REFUTED: and the vertices cached by triangulate_faces are not in the plane of the face *)
Theorem c97_cached_plane_refuted : exists X m m' f W, triangulate_faces X [0; 1]%nat true m = Some m' /\ nth_error (m_faces m') 0 = Some f /\ cf_triV f = Some W /\ cf_id f = AxialFace 2 1 /\
  Exists (fun w => coordinate w 2 <> (coordinate (m_origin m) 2 + coordinate (m_dx m) 2 * Z2Qc 1)%Qc) W.
Proof.
  exists ex_tri, (ex_tmesh (0, 0, Z2Qc 10)%Qc (1, 1, 1)%Qc). do 3 eexists. split; [reflexivity|]. split; [reflexivity|]. split; [reflexivity|]. split; [reflexivity|].
  apply Exists_cons_hd. intros E. apply (f_equal this) in E. revert E. vm_compute. discriminate.
Qed.
Example c95_example : exists P E, tri_input (plane_pts unit_mesh) ex_loops = Some (P, E) /\ length P = 4%nat /\ E = [(0, 1); (1, 3); (3, 0); (0, 2); (2, 1); (1, 0)] /\
  exists T, triangulate_triangle (mkExt (fun P _ => (P, [(0, 1, 3); (0, 2, 1)])) (fun _ _ => []) (fun _ l _ => if existsb (Z.eqb 6) l then 1%Qc else 0%Qc)) (plane_pts unit_mesh) ex_loops 2 0 true = Some ([], T) /\ T = [(0, 2, 6); (0, 4, 2)].
Proof. do 2 eexists. repeat split. eexists. split; reflexivity. Qed.
Example c96_example : fan_tris [0; 2; 6; 4] = Some [(0, 2, 6); (0, 6, 4)]. Proof. reflexivity. Qed.

(** ** C98: cached triangulations *)
Lemma nth_error_zput (A : Type) (l : list A) i x j : (i < length l)%nat -> nth_error (zput l i x) j = if (j =? i)%nat then Some x else nth_error l j.
Proof.
  revert i j. induction l as [|a l IH]; intros i j H; cbn in H; [lia|]. destruct i as [|i], j as [|j]; cbn [zput nth_error Nat.eqb]; auto. apply IH. lia.
Qed.
Lemma sequence_none (A : Type) (l : list (option A)) : In None l -> sequence l = None.
Proof. induction l as [|[x|] l IH]; cbn; intros H; auto; [destruct H|destruct H as [|H]; [discriminate|]; rewrite IH; auto]. Qed.
Section Schedule.
  Variables (X : externals) (V : list q3) (add : bool).
  Let g := cache_triangulation X V add.
  Let upd (ord : list nat) (fs : list cut_face) : list (option cut_face) := map (fun x => if existsb (Nat.eqb (fst x)) ord then g (snd x) else Some (snd x)) (combine (seq 0 (length fs)) fs).
  Lemma nth_upd ord fs j : nth_error (upd ord fs) j = option_map (fun f => if existsb (Nat.eqb j) ord then g f else Some f) (nth_error fs j).
  Proof.
    unfold upd. rewrite nth_error_map, nth_error_combine'. destruct (Nat.lt_ge_cases j (length fs)) as [H|H].
    - rewrite (nth_error_nth' (seq 0 (length fs)) O) by (rewrite List.seq_length; auto). rewrite seq_nth by auto. cbn. destruct (nth_error fs j); reflexivity.
    - assert (E : nth_error fs j = None) by (apply nth_error_None; auto). rewrite E. destruct (nth_error (seq 0 (length fs)) j); reflexivity.
  Qed.
  Lemma fold_none ord : fold_left (cache_step X V add) ord None = None.
  Proof. induction ord; cbn; auto. Qed.
  Lemma fold_cache ord : forall fs, NoDup ord -> (forall i, In i ord -> (i < length fs)%nat) -> fold_left (cache_step X V add) ord (Some fs) = sequence (upd ord fs).
  Proof.
    induction ord as [|i ord IH]; intros fs ND LT.
    - cbn [fold_left]. symmetry. assert (E : upd [] fs = map Some fs). { apply nth_error_ext. intros j. rewrite nth_upd, nth_error_map. reflexivity. }
      rewrite E. clear. induction fs as [|f fs IH]; cbn; auto. rewrite IH. reflexivity.
    - inversion ND as [|? ? NI ND']; subst. assert (Li : (i < length fs)%nat) by (apply LT; cbn; auto). cbn [fold_left cache_step].
      destruct (nth_error fs i) as [f|] eqn:Ef; [|apply nth_error_None in Ef; lia]. fold g. destruct (g f) as [f'|] eqn:Eg; cbn [option_map].
      + rewrite IH; auto; [|intros j Ij; rewrite zput_length; apply LT; cbn; auto]. f_equal. apply nth_error_ext. intros j. rewrite !nth_upd, nth_error_zput by auto. cbn [existsb].
        destruct (Nat.eqb_spec j i) as [->|N]; cbn [orb]; auto. rewrite Ef. cbn [option_map]. rewrite Eg. destruct (existsb (Nat.eqb i) ord) eqn:Ex; auto. exfalso. apply existsb_exists in Ex as (k & Ik & Ek). apply Nat.eqb_eq in Ek. subst. auto.
      + rewrite fold_none. symmetry. apply sequence_none. apply (nth_error_In _ i). rewrite nth_upd, Ef. cbn [option_map existsb]. rewrite Nat.eqb_refl. cbn. rewrite Eg. reflexivity.
  Qed.
  Lemma upd_all ord fs : Permutation ord (seq 0 (length fs)) -> upd ord fs = map g fs.
  Proof.
    intros P. apply nth_error_ext. intros j. rewrite nth_upd, nth_error_map. destruct (nth_error fs j) as [f|] eqn:E; auto. cbn.
    assert (I : existsb (Nat.eqb j) ord = true). { apply existsb_exists. exists j. split; [|apply Nat.eqb_refl]. apply (Permutation_in _ (Permutation_sym P)). apply in_seq. assert (nth_error fs j <> None) by congruence. apply nth_error_Some in H. lia. }
    rewrite I. reflexivity.
  Qed.
End Schedule.
(** triangulate_faces: in whatever order the parallel loop runs, every face is triangulated from the mesh's vertices alone *)
Theorem c98_schedule X ord add m : Permutation ord (seq 0 (length (m_faces m))) ->
  triangulate_faces X ord add m = option_map (with_faces m) (sequence (map (cache_triangulation X (vertices3 m) add) (m_faces m))).
Proof.
  intros P. unfold triangulate_faces. rewrite fold_cache.
  - rewrite (upd_all X (vertices3 m) add (m_faces m) P). reflexivity.
  - apply (Permutation_NoDup (Permutation_sym P)). apply seq_NoDup.
  - intros i I. apply (Permutation_in _ P) in I. apply in_seq in I. lia.
Qed.
Corollary c98_any_order X ord ord' add m : Permutation ord (seq 0 (length (m_faces m))) -> Permutation ord' (seq 0 (length (m_faces m))) ->
  triangulate_faces X ord add m = triangulate_faces X ord' add m.
Proof. intros. rewrite !c98_schedule; auto. Qed.
(** afterwards a face holds its new triangles if there are any, what it held before otherwise; the same for its own vertices; nothing else changes *)
Theorem c98_cached X ord add m m' i f : Permutation ord (seq 0 (length (m_faces m))) -> triangulate_faces X ord add m = Some m' -> nth_error (m_faces m) i = Some f ->
  exists W T f', triangulate X (vertices3 m) f add = Some (W, T) /\ nth_error (m_faces m') i = Some f' /\
    cf_tri f' = (if (length T =? 0)%nat then cf_tri f else Some T) /\ cf_triV f' = (if (length W =? 0)%nat then cf_triV f else Some W) /\
    cf_loops f' = cf_loops f /\ cf_id f' = cf_id f /\ cf_N f' = cf_N f /\ cf_mask f' = cf_mask f /\ cf_ext f' = cf_ext f.
Proof.
  intros P H Hf. rewrite c98_schedule in H by auto. destruct (sequence _) as [fs|] eqn:S; [|discriminate]. cbn in H. apply Some_inj in H. subst m'. cbn [m_faces with_faces].
  apply seq_length in S as (_ & S). specialize (S i). rewrite nth_error_map, Hf in S. cbn [option_map] in S. destruct (nth_error fs i) as [f'|]; [|discriminate]. cbn in S. apply Some_inj in S.
  unfold cache_triangulation in S. destruct (triangulate X (vertices3 m) f add) as [[W T]|]; [|discriminate]. cbn in S. apply Some_inj in S. subst f'. exists W, T. eexists. split; [reflexivity|]. split; [reflexivity|].
  cbn. destruct T, W; cbn; auto 10.
Qed.
Lemma triangulate_set X V f VF add : triangulate X V (set_tri f VF) add = triangulate X V f add. Proof. reflexivity. Qed.
(** triangulating twice with the same flag is the same as once, as long as nothing is drawn from a stale cache *)
Theorem c98_idempotent X ord add m m' : Permutation ord (seq 0 (length (m_faces m))) -> triangulate_faces X ord add m = Some m' -> triangulate_faces X ord add m' = Some m'.
Proof.
  intros P H. rewrite c98_schedule in H by auto. destruct (sequence _) as [fs|] eqn:S; [|discriminate]. cbn in H. apply Some_inj in H. subst m'.
  assert (L : length fs = length (m_faces m)) by (apply seq_length in S as (L & _); rewrite map_length in L; auto).
  rewrite c98_schedule by (cbn [m_faces with_faces]; rewrite L; auto). cbn [m_faces with_faces].
  change (vertices3 (with_faces m fs)) with (vertices3 m). assert (E : sequence (map (cache_triangulation X (vertices3 m) add) fs) = Some fs).
  { apply sequence_forall2 in S. clear L P. induction S as [|f f' l r H F IH]; cbn; auto. rewrite IH. clear IH F. unfold cache_triangulation in *.
    assert (T : triangulate X (vertices3 m) f' add = triangulate X (vertices3 m) f add) by (destruct (triangulate X (vertices3 m) f add) as [[W T]|] eqn:ET; [|discriminate]; cbn in H; apply Some_inj in H; subst f'; rewrite triangulate_set; exact ET).
    rewrite T. destruct (triangulate X (vertices3 m) f add) as [[W T']|]; [|discriminate]. cbn in *. apply Some_inj in H. subst f'. unfold set_tri. cbn. destruct W, T'; reflexivity. }
  rewrite E. reflexivity.
Qed.
(** REFUTED: the result depends on earlier calls.  After triangulate_faces(true) the vertices stay with the face when triangulate_faces(false) replaces the triangles,
    so the solid angle of the face is taken over other triangles than without the earlier call *)
Definition ex_iso : externals := mkExt (fun P _ => (P ++ [ex_mid P], [(0, 1, 3); (0, 2, 1)])) (fun _ _ => [(0, 1, 2)]) (fun _ _ _ => 1%Qc).
Theorem c98_history_refuted : exists X m m1 m2 m3 f2 f3,
  triangulate_faces X [0; 1]%nat true m = Some m1 /\ triangulate_faces X [0; 1]%nat false m1 = Some m2 /\ triangulate_faces X [0; 1]%nat false m = Some m3 /\
  nth_error (m_faces m2) 0 = Some f2 /\ nth_error (m_faces m3) 0 = Some f3 /\ cf_tri f2 = cf_tri f3 /\
  solid_angle_triangles (vertices3 m) f2 <> solid_angle_triangles (vertices3 m) f3.
Proof.
  exists ex_iso, unit_mesh. do 5 eexists. split; [reflexivity|]. split; [reflexivity|]. split; [reflexivity|]. split; [reflexivity|]. split; [reflexivity|]. split; [reflexivity|].
  intros E. apply (f_equal (fun x => match x with None => true | Some _ => false end)) in E. revert E. vm_compute. discriminate.
Qed.
(** without points added, the earlier call makes no difference *)
Theorem c98_no_points_partial X ord m m1 : Permutation ord (seq 0 (length (m_faces m))) -> triangulate_faces X ord true m = Some m1 ->
  (forall f W T, In f (m_faces m) -> triangulate X (vertices3 m) f true = Some (W, T) -> W = [] /\ T <> [] /\ triangulate X (vertices3 m) f false = Some ([], T)) ->
  triangulate_faces X ord false m1 = Some m1 /\ triangulate_faces X ord false m = Some m1.
Proof.
  intros P H HN. rewrite c98_schedule in H by auto. destruct (sequence _) as [fs|] eqn:S; [|discriminate]. cbn in H. apply Some_inj in H. subst m1.
  assert (L : length fs = length (m_faces m)) by (apply seq_length in S as (L & _); rewrite map_length in L; auto).
  rewrite !c98_schedule by (cbn [m_faces with_faces]; rewrite ?L; auto). cbn [m_faces with_faces]. change (vertices3 (with_faces m fs)) with (vertices3 m).
  apply sequence_forall2 in S. clear L P.
  assert (K : sequence (map (cache_triangulation X (vertices3 m) false) fs) = Some fs /\ sequence (map (cache_triangulation X (vertices3 m) false) (m_faces m)) = Some fs).
  { induction S as [|f f' l r H F IH]; cbn [map sequence]; auto. destruct IH as (I1 & I2); [intros; apply (HN f0 W T); cbn; auto|]. unfold cache_triangulation in *.
    destruct (triangulate X (vertices3 m) f true) as [[W T]|] eqn:ET; [|discriminate]. cbn in H. apply Some_inj in H. destruct (HN f W T (or_introl eq_refl) ET) as (-> & NT & EF).
    assert (T' : triangulate X (vertices3 m) f' false = triangulate X (vertices3 m) f false) by (subst f'; apply triangulate_set). rewrite T', EF. cbn [option_map]. rewrite I1, I2. cbn [option_map]. split; [|rewrite H; reflexivity].
    do 2 f_equal. subst f'. unfold set_tri. cbn. destruct T; [congruence|]. reflexivity. }
  destruct K as (K1 & K2). rewrite K1, K2. split; reflexivity.
Qed.
Example c98_example : exists m', triangulate_faces ex_tri [1; 0]%nat true unit_mesh = Some m' /\ map (fun f => option_map (@length c3) (cf_tri f)) (m_faces m') = [Some 3%nat; Some 2%nat].
Proof. eexists. split; reflexivity. Qed.
