(** C137: from the cut faces of the input and the slices to the mesh - which faces the generated mesh has. *)
From Verif Require Import Base Num CoordMask CoordMaskSpec CoordMaskProofs Vertex VertexSpec VertexProofs Grid SmallestEdge SmallestEdgeSpec SmallestEdgeProofs AdaptiveGrid Mesh ProtoProofs DisjointSet CellCollapser CellCollapserSpec PropsCells PropsBake BakeCells Boundary3 Volume Hem Gen3 PropsTriang PropsQueries3 PropsBoundary3 GenChecks PropsGenChecks PropsGen3 Gen3Whole PropsGen3Whole FaceStage.
Set Implicit Arguments.
Local Open Scope Z_scope.

(** what the library promises of a slice: a map of faces whose indices occur among the half-edges' and are not negative, loops of proper vertices in the plane *)
Record plane_ok (V : Z -> vertex) (p : plane) : Prop := {
  po_axis : (pl_axis p < 3)%nat;
  po_map : ssorted Z.compare (map fst (sl_faces (pl_slice p)));
  po_ids : forall i vs, In (i, vs) (sl_faces (pl_slice p)) -> 0 <= i /\ In i (pl_ids p);
  po_loops : forall i vs l, In (i, vs) (sl_faces (pl_slice p)) -> In l vs -> loop_in_plane V (pl_axis p) (pl_coord p) l }.
(** at least one cell *)
Definition has_cell (p : plane) : Prop := exists i, In i (pl_ids p) /\ 0 <= i.
Definition pieces_ok (V : Z -> vertex) (cfs : list mesh_cut_face) : Prop := forall c j, In c cfs -> In j (mcf_loop c) -> v_wf 3 (V j) /\ normalised (V j).

(** where a face comes from: the i-th piece of the input surface, or the face of index i in the q-th slice *)
Inductive source := FromInput (i : nat) | FromSlice (q : nat) (i : Z).
Definition from_input (origN : Z -> q3) (cfs : list mesh_cut_face) (i : nat) (f : cut_face) : Prop :=
  exists c, nth_error cfs i = Some c /\ (3 <= length (mcf_loop c))%nat /\ cf_loops f = [mcf_loop c] /\ cf_mask f = mcf_mask c /\ cf_id f = MeshFace (mcf_parent c) /\ cf_N f = origN (mcf_parent c).
Definition from_slice (V : Z -> vertex) (prim : nat -> list edge) (planes : list plane) (q : nat) (i : Z) (f : cut_face) : Prop :=
  exists p vs, nth_error planes q = Some p /\ In (i, vs) (sl_faces (pl_slice p)) /\ cf_id f = AxialFace (Z.of_nat (pl_axis p)) (pl_coord p) /\
    (forall d, (d < 3)%nat -> q3_nth (cf_N f) d = if Nat.eqb d (pl_axis p) then 1%Qc else 0%Qc) /\
    cf_loops f <> [] /\ NoDup (cf_loops f) /\ (forall l, In l (cf_loops f) <-> In l vs /\ kept_spec V (prim (pl_axis p)) (pl_axis p) (pl_slice p) (sl_vols (pl_slice p) i) l) /\
    forall d k, nth_error (cf_mask f) d = Some (Some k) <-> forall l j, In l (cf_loops f) -> In j l -> nth_error (pos (V j)) d = Some (Z2Qc k).
Definition comes_from V prim origN cfs planes (s : source) (f : cut_face) : Prop :=
  match s with FromInput i => from_input origN cfs i f | FromSlice q i => from_slice V prim planes q i f end.

(** ** one slice *)
Lemma keep_loops_sorted V prim idx sl vol : forall vs acc r, ssorted zlex acc -> keep_loops V prim idx sl vol vs acc = Some r -> ssorted zlex r.
Proof.
  induction vs as [|v vs IH]; intros acc r S; cbn [keep_loops]; [intros E; apply Some_inj in E; subst; auto|]. destruct (keep_loop _ _ _ _ _ _) as [b|]; [|discriminate]. apply IH. destruct b; auto. apply (set_insert_sorted zlex_total); auto.
Qed.
Lemma faces_axis_shape V prim idx cidx sl : (idx < 3)%nat -> forall fs r, (forall i vs l, In (i, vs) fs -> In l vs -> loop_in_plane V idx cidx l) -> ssorted Z.compare (map fst fs) -> faces_axis V prim idx sl fs = Some r ->
  ssorted Z.compare (map fst r) /\
  (forall i ls, In (i, ls) r -> ls <> [] /\ NoDup ls /\ exists vs, In (i, vs) fs /\ forall l, In l ls <-> In l vs /\ kept_spec V prim idx sl (sl_vols sl i) l) /\
  (forall i vs l, In (i, vs) fs -> In l vs -> kept_spec V prim idx sl (sl_vols sl i) l -> In i (map fst r)).
Proof.
  intros Hi. induction fs as [|[i0 vs0] fs IH]; intros r HP S; cbn [faces_axis].
  - intros E. apply Some_inj in E. subst. split; [constructor|]. split; [intros i ls []|intros i vs l []].
  - destruct (keep_loops V prim idx sl (sl_vols sl i0) vs0 []) as [ls0|] eqn:EK; [|discriminate]. destruct (faces_axis V prim idx sl fs) as [r'|] eqn:ER; [|destruct ls0; discriminate]. intros E.
    assert (EQ : r = match ls0 with [] => r' | _ => (i0, ls0) :: r' end) by (destruct ls0; apply Some_inj in E; auto). clear E.
    assert (HK := @keep_loops_spec V prim idx cidx sl (sl_vols sl i0) Hi vs0 [] ls0 (fun l H => HP i0 vs0 l (or_introl eq_refl) H) EK). assert (SK := keep_loops_sorted _ _ _ _ _ _ (ss_nil _) EK).
    cbn [map fst] in S. inversion S as [|? ? S1 S2]; subst. destruct (IH r') as (A & B & C); auto. { intros i vs l I; apply (HP i vs l); right; auto. }
    assert (SUB : forall i, In i (map fst r') -> In i (map fst fs)). { intros i I. apply in_map_iff in I as ([j ls] & <- & I). destruct (B _ _ I) as (_ & _ & vs & J & _). apply in_map_iff. exists (j, vs). auto. }
    split; [|split].
    + destruct ls0; auto. cbn [map fst]. constructor; auto. rewrite Forall_forall in *. intros j J. apply S1, SUB; auto.
    + intros i ls I. assert (I' : In (i, ls) r' \/ (i, ls) = (i0, ls0) /\ ls0 <> []). { destruct ls0; auto. destruct I as [I|I]; auto. right. split; auto. discriminate. }
      destruct I' as [I'|[I' N]].
      * destruct (B _ _ I') as (B1 & B2 & vs & B3 & B4). split; auto. split; auto. exists vs. split; [right; auto|auto].
      * apply pair_equal_spec in I' as [-> ->]. split; auto. split; [apply (ssorted_NoDup zlex_total SK)|]. exists vs0. split; [left; auto|]. intros l. rewrite HK. cbn. tauto.
    + intros i vs l [J|J] L K.
      * apply pair_equal_spec in J as [-> ->]. assert (X : In l ls0) by (apply HK; auto). destruct ls0; [destruct X|left; auto].
      * assert (X := C i vs l J L K). destruct ls0; auto. right. auto.
Qed.
Lemma kept_shift V prim idx n sl vol l : kept_spec V prim idx (shifted n sl) vol l <-> kept_spec V prim idx sl vol l.
Proof. unfold kept_spec, shifted. cbn. tauto. Qed.
Lemma normal_spec a d : (a < 3)%nat -> (d < 3)%nat -> q3_nth (axis_normal a) d = if Nat.eqb d a then 1%Qc else 0%Qc.
Proof. intros A B. destruct a as [|[|[|a]]]; try lia; destruct d as [|[|[|d]]]; try lia; cbn; apply Qc_is_canon; reflexivity. Qed.
Lemma slice_mask V idx cidx ls : ls <> [] -> (forall l, In l ls -> l <> []) -> (forall l j, In l ls -> In j l -> v_wf 3 (V j) /\ normalised (V j)) ->
  forall d k, nth_error (cf_mask (slice_face V idx cidx ls)) d = Some (Some k) <-> forall l j, In l ls -> In j l -> nth_error (pos (V j)) d = Some (Z2Qc k).
Proof.
  intros N NE W d k. cbn [slice_face cf_mask]. destruct (@c127_face_mask 3 (fun i => v_mask (V i)) ls) as [_ H]. { intros l i A B. apply v_mask_length. apply (W l i); auto. }
  assert (X := H d k). unfold binds in X. rewrite X. assert (G : forall l i, In l ls -> In i l -> (binds (v_mask (V i)) d k <-> nth_error (pos (V i)) d = Some (Z2Qc k))).
  { intros l i A B. destruct (W l i A B) as [W1 W2]. apply (@vmask_plane [0; 0; 0]); auto. }
  split.
  - intros (_ & _ & Y) l j A B. apply (G l j A B). apply (Y l j A B).
  - intros Y. split; auto. split; auto. intros l i A B. apply (G l i A B). apply (Y l i A B).
Qed.

Section Slice.
  Variables (V : Z -> vertex) (prim : nat -> list edge).
  Lemma plane_faces_spec n p fs : 0 <= n -> plane_ok V p -> plane_faces V prim n p = Some fs ->
    ssorted Z.compare (map fst fs) /\
    (forall k f, In (k, f) fs -> exists i vs, k = i + n /\ In (i, vs) (sl_faces (pl_slice p)) /\ f = slice_face V (pl_axis p) (pl_coord p) (cf_loops f) /\ cf_loops f <> [] /\ NoDup (cf_loops f) /\
       forall l, In l (cf_loops f) <-> In l vs /\ kept_spec V (prim (pl_axis p)) (pl_axis p) (pl_slice p) (sl_vols (pl_slice p) i) l) /\
    (forall i vs l, In (i, vs) (sl_faces (pl_slice p)) -> In l vs -> kept_spec V (prim (pl_axis p)) (pl_axis p) (pl_slice p) (sl_vols (pl_slice p) i) l -> In (i + n) (map fst fs)).
  Proof.
    intros Hn [PA PM PI PL]. unfold plane_faces. cbv zeta. destruct (faces_axis V (prim (pl_axis p)) (pl_axis p) (shifted n (pl_slice p)) (sl_faces (shifted n (pl_slice p)))) as [r|] eqn:ER; [|discriminate]. cbn [option_map]. intros E. apply Some_inj in E. subst fs.
    assert (SF : forall k vs, In (k, vs) (sl_faces (shifted n (pl_slice p))) <-> exists i, In (i, vs) (sl_faces (pl_slice p)) /\ k = i + n).
    { intros k vs. cbn [shifted sl_faces]. rewrite in_map_iff. split.
      - intros ([i ws] & E & I). destruct (PI _ _ I) as [P _]. apply pair_equal_spec in E as [E ->]. rewrite (proj2 (Z.leb_le 0 i) P) in E. exists i. auto.
      - intros (i & I & ->). exists (i, vs). split; auto. destruct (PI _ _ I) as [P _]. rewrite (proj2 (Z.leb_le 0 i) P). auto. }
    assert (SS : ssorted Z.compare (map fst (sl_faces (shifted n (pl_slice p))))).
    { cbn [shifted sl_faces]. rewrite map_map. clear - PM PI. induction (sl_faces (pl_slice p)) as [|[i vs] l IH]; cbn [map]; [constructor|]. cbn [map fst] in PM. inversion PM as [|? ? S1 S2]; subst. constructor.
      - rewrite Forall_forall in *. intros x X. apply in_map_iff in X as ([j ws] & <- & J). cbn [fst]. destruct (PI i vs) as [P1 _]; [left; auto|]. destruct (PI j ws) as [P2 _]; [right; auto|]. rewrite !(proj2 (Z.leb_le _ _)) by auto.
        assert (L := S1 j). rewrite Z.compare_lt_iff in *. assert (i < j); [apply L; apply in_map_iff; exists (j, ws); auto|lia].
      - apply IH; auto. intros j ws J. apply (PI j ws). right. auto. }
    destruct (@faces_axis_shape V (prim (pl_axis p)) (pl_axis p) (pl_coord p) (shifted n (pl_slice p)) PA (sl_faces (shifted n (pl_slice p))) r) as (A & B & C); auto.
    { intros k vs l I L. apply SF in I as (i & I & _). eapply PL; eauto. }
    assert (MK : map fst (map (fun '(i, ls) => (i, slice_face V (pl_axis p) (pl_coord p) ls)) r) = map fst r) by (rewrite map_map; apply map_ext; intros []; auto).
    split; [rewrite MK; auto|]. split.
    - intros k f I. apply in_map_iff in I as ([j ls] & E & I). apply pair_equal_spec in E as [-> <-]. destruct (B _ _ I) as (B1 & B2 & vs & B3 & B4). apply SF in B3 as (i & B3 & ->). exists i, vs. cbn [slice_face cf_loops]. do 5 (split; [auto|]).
      intros l. rewrite B4, kept_shift. cbn [shifted sl_vols]. replace (i + n - n) with i by lia. tauto.
    - intros i vs l I L K. rewrite MK. apply (C (i + n) vs l); auto; [apply SF; eauto|]. rewrite kept_shift. cbn [shifted sl_vols]. replace (i + n - n) with i by lia. auto.
  Qed.
  Lemma slice_from planes q p n fs k f : nth_error planes q = Some p -> 0 <= n -> plane_ok V p -> plane_faces V prim n p = Some fs -> In (k, f) fs -> forall e, from_slice V prim planes q (k - n) (set_ext e f).
  Proof.
    intros N Hn OK E I e. destruct (proj1 (proj2 (plane_faces_spec Hn OK E)) k f I) as (i & vs & -> & A & B & C & D & F). replace (i + n - n) with i by lia. exists p, vs. cbn [set_ext cf_id cf_N cf_loops cf_mask]. split; auto. split; auto.
    assert (EI : cf_id f = AxialFace (Z.of_nat (pl_axis p)) (pl_coord p)) by (rewrite B; reflexivity). assert (EN : cf_N f = axis_normal (pl_axis p)) by (rewrite B; reflexivity).
    assert (EM : cf_mask f = cf_mask (slice_face V (pl_axis p) (pl_coord p) (cf_loops f))) by (rewrite B at 1; reflexivity).
    split; auto. split; [intros d Hd; rewrite EN; apply normal_spec; auto; apply (po_axis OK)|]. do 3 (split; [auto|]). intros d k. rewrite EM. apply slice_mask; auto.
    - intros l L. apply F in L as [_ (_ & L & _)]. intros ->. cbn in L. lia.
    - intros l j L J. apply F in L as [L _]. destruct (po_loops OK _ _ _ A L j J) as (X & Y & _). auto.
  Qed.
End Slice.

(** ** collecting *)
Lemma emplace_last (A : Type) k (f : A) m : (forall j, In j (map fst m) -> j < k) -> map_emplace Z.compare k f m = m ++ [(k, f)].
Proof.
  intros H. unfold map_emplace. assert (F : map_find Z.compare k m = None).
  { induction m as [|[j g] m IH]; auto. cbn [map_find]. assert (j < k) by (apply H; left; auto). rewrite (proj2 (Z.compare_gt_iff k j)) by lia. apply IH. intros i I; apply H; right; auto. }
  rewrite F. clear F. induction m as [|[j g] m IH]; auto. cbn [map_set app]. assert (j < k) by (apply H; left; auto). rewrite (proj2 (Z.compare_gt_iff k j)) by lia. f_equal. apply IH. intros i I; apply H; right; auto.
Qed.
Lemma insert_last (A : Type) fcs : forall m : list (Z * A), ssorted Z.compare (map fst fcs) -> (forall j k, In j (map fst m) -> In k (map fst fcs) -> j < k) -> insert_faces m fcs = m ++ fcs.
Proof.
  induction fcs as [|[k f] fcs IH]; intros m S H; [cbn; rewrite app_nil_r; auto|]. cbn [map fst] in S. inversion S as [|? ? S1 S2]; subst. change (insert_faces m ((k, f) :: fcs)) with (insert_faces (map_emplace Z.compare k f m) fcs).
  rewrite emplace_last by (intros j J; apply H; [auto|left; auto]). rewrite IH; auto; [rewrite <- app_assoc; auto|]. intros j i J I. rewrite map_app in J. apply in_app_or in J as [J|[<-|[]]]; [apply H; [auto|right; auto]|]. rewrite Forall_forall in S1. apply S1 in I. rewrite Z.compare_lt_iff in I. auto.
Qed.
Lemma ssorted_app (a b : list Z) : ssorted Z.compare a -> ssorted Z.compare b -> (forall x y, In x a -> In y b -> x < y) -> ssorted Z.compare (a ++ b).
Proof.
  induction a as [|x a IH]; intros SA SB H; auto. inversion SA as [|? ? S1 S2]; subst. cbn [app]. constructor.
  - rewrite Forall_forall in *. intros y Y. apply in_app_or in Y as [Y|Y]; auto. rewrite Z.compare_lt_iff. apply H; [left; auto|auto].
  - apply IH; auto. intros u v U W. apply H; [right; auto|auto].
Qed.
Lemma max_ge l : forall a m, fold_left Z.max l a = m -> a <= m /\ forall x, In x l -> x <= m.
Proof.
  induction l as [|y l IH]; intros a m E; cbn in E; [subst; split; [lia|intros x []]|]. destruct (IH _ _ E) as [H1 H2]. split; [lia|]. intros x [<-|X]; [lia|auto].
Qed.
Lemma max_coeff_ge ids m : max_coeff ids = Some m -> forall x, In x ids -> x <= m.
Proof. destruct ids as [|a l]; [discriminate|]. cbn [max_coeff]. intros E. apply Some_inj in E. destruct (max_ge _ _ E) as [H1 H2]. intros x [<-|X]; auto. Qed.

Section Collect.
  Variables (V : Z -> vertex) (prim : nat -> list edge).
  Let step (np : Z * plane) : option (list (Z * cut_face)) := let '(n, p) := np in plane_faces V prim n p.
  Lemma collect_spec : forall planes n ns fss m, 0 <= n -> (forall p, In p planes -> plane_ok V p /\ has_cell p) -> offsets n planes = Some ns -> sequence (map step (combine ns planes)) = Some fss ->
    ssorted Z.compare (map fst m) -> (forall k, In k (map fst m) -> 0 <= k < n) ->
    collect_faces m fss = m ++ concat fss /\ ssorted Z.compare (map fst (m ++ concat fss)) /\ (forall k, In k (map fst (m ++ concat fss)) -> 0 <= k) /\
    Forall2 (fun p fs => exists o, n <= o /\ plane_faces V prim o p = Some fs) planes fss.
  Proof.
    induction planes as [|p planes IH]; intros n ns fss m Hn OK EO ES SM BM; cbn [offsets] in EO.
    - apply Some_inj in EO. subst ns. cbn in ES. apply Some_inj in ES. subst fss. cbn [concat]. rewrite app_nil_r. split; auto. split; auto. split; [intros k K; apply BM in K; lia|constructor].
    - destruct (max_coeff (shift_ids n (pl_ids p))) as [x|] eqn:EX; [|discriminate]. destruct (offsets (x + 1) planes) as [os|] eqn:EOS; [|discriminate]. cbn [option_map] in EO. apply Some_inj in EO. subst ns. cbn [combine map] in ES.
      change (step (n, p)) with (plane_faces V prim n p) in ES. cbn [sequence] in ES. destruct (plane_faces V prim n p) as [fs|] eqn:EP; [|discriminate]. destruct (sequence (map step (combine os planes))) as [fss'|] eqn:EQ; [|discriminate]. cbn [option_map] in ES. apply Some_inj in ES. subst fss.
      destruct (OK p) as [PO PC]; [left; auto|]. destruct (plane_faces_spec prim Hn PO EP) as (A & B & _). assert (X0 := max_coeff_ge _ EX).
      assert (XI : forall i, In i (pl_ids p) -> 0 <= i -> i + n <= x). { intros i I P. apply X0. unfold shift_ids. apply in_map_iff. exists i. rewrite (proj2 (Z.leb_le 0 i) P). auto. }
      assert (XN : n <= x). { destruct PC as (i & I & P). specialize (XI i I P). lia. }
      assert (KF : forall k, In k (map fst fs) -> n <= k <= x). { intros k K. apply in_map_iff in K as ([k' f] & <- & K). destruct (B _ _ K) as (i & vs & -> & I & _). destruct (po_ids PO _ _ I) as [P Q]. cbn [fst]. specialize (XI i Q P). lia. }
      assert (INS : insert_faces m fs = m ++ fs). { apply insert_last; auto. intros j k J K. apply BM in J. apply KF in K. lia. }
      assert (SMF : ssorted Z.compare (map fst (m ++ fs))). { rewrite map_app. apply ssorted_app; auto. intros j k J K. apply BM in J. apply KF in K. lia. }
      destruct (IH (x + 1) os fss' (m ++ fs)) as (C1 & C2 & C3 & C4); auto; [lia|intros; apply OK; right; auto| |].
      { intros k K. rewrite map_app in K. apply in_app_or in K as [K|K]; [apply BM in K; lia|apply KF in K; lia]. }
      change (collect_faces m (fs :: fss')) with (collect_faces (insert_faces m fs) fss'). rewrite INS, C1. cbn [concat]. rewrite <- app_assoc in *. split; auto. split; auto. split; auto. constructor; [exists n; split; auto; lia|]. clear - C4 XN. induction C4 as [|a b ? ? (o & L & E)]; constructor; auto. exists o. split; auto. lia.
  Qed.
  Lemma plane_sources pre planes fss es : (forall p, In p planes -> plane_ok V p) -> Forall2 (fun p fs => exists o, 0 <= o /\ plane_faces V prim o p = Some fs) planes fss -> length es = length (concat fss) ->
    exists srcs, Forall2 (fun s f => exists q i, s = FromSlice q i /\ from_slice V prim (pre ++ planes) q i f) srcs (zipwith set_ext es (map snd (concat fss))) /\ NoDup srcs /\
      (forall s, In s srcs -> exists q i, s = FromSlice q i /\ (length pre <= q)%nat) /\ forall q i f, (length pre <= q)%nat -> from_slice V prim (pre ++ planes) q i f -> In (FromSlice q i) srcs.
  Proof.
    intros OK F. revert pre es. induction F as [|p fs planes fss (o & Ho & E) F IH]; intros pre es L.
    - exists []. cbn in L |- *. destruct es; [|discriminate]. split; [constructor|]. split; [constructor|]. split; [intros s []|]. intros q i f Hq (p & vs & N & _). rewrite app_nil_r in N. apply nth_error_Some_lt in N. lia.
    - cbn [concat] in L |- *. rewrite app_length in L. set (e1 := firstn (length fs) es). set (e2 := skipn (length fs) es). assert (EE : es = e1 ++ e2) by (symmetry; apply firstn_skipn). assert (L1 : length e1 = length fs) by (unfold e1; rewrite firstn_length; lia). assert (L2 : length e2 = length (concat fss)) by (unfold e2; rewrite skipn_length; lia). clearbody e1 e2.
      destruct (IH) with (pre := pre ++ [p]) (es := e2) as (srcs & S1 & S2 & S3 & S4); auto. { intros; apply OK; right; auto. } rewrite <- app_assoc in *. cbn [app] in *. rewrite app_length in *. cbn [length] in *.
      assert (PO : plane_ok V p) by (apply OK; left; auto). assert (NP : nth_error (pre ++ p :: planes) (length pre) = Some p) by (rewrite nth_error_app2, Nat.sub_diag by lia; auto). destruct (plane_faces_spec prim Ho PO E) as (A & B & C).
      exists (map (fun '(k, _) => FromSlice (length pre) (k - o)) fs ++ srcs). split; [|split; [|split]].
      + rewrite map_app, EE. assert (Z1 : zipwith set_ext (e1 ++ e2) (map snd fs ++ map snd (concat fss)) = zipwith set_ext e1 (map snd fs) ++ zipwith set_ext e2 (map snd (concat fss))).
        { clear - L1. revert fs L1. induction e1 as [|e e1 IH]; intros [|[k f] fs] L1; cbn in *; try discriminate; auto. f_equal. apply IH. lia. }
        rewrite Z1. apply Forall2_app; auto. assert (G : forall l es, incl l fs -> length es = length l -> Forall2 (fun s f => exists q i, s = FromSlice q i /\ from_slice V prim (pre ++ p :: planes) q i f) (map (fun '(k, _) => FromSlice (length pre) (k - o)) l) (zipwith set_ext es (map snd l))).
        { induction l as [|[k f] l IHl]; intros [|e es'] I LL; cbn in LL |- *; try discriminate; constructor; [|apply IHl; [intros x X; apply I; right; auto|lia]]. exists (length pre), (k - o). split; auto. apply (@slice_from V prim _ _ _ _ _ _ f NP Ho PO E). apply I. left; auto. }
        apply G; [intros x X; auto|auto].
      + apply CoordMaskProofs.NoDup_app_disjoint; auto.
        * assert (ND := ssorted_NoDup Zcompare_total A). clear - ND. induction fs as [|[k f] fs IH]; cbn; constructor; inversion ND; subst; auto. intros I. apply in_map_iff in I as ([j g] & J & I). injection J as J. assert (j = k) by lia. subst j. apply H1. apply in_map_iff. exists (k, g). auto.
        * intros s I J. apply in_map_iff in I as ([k f] & <- & I). apply S3 in J as (q & i & J & LL). injection J as J _. lia.
      + intros s I. apply in_app_or in I as [I|I]; [apply in_map_iff in I as ([k f] & <- & I); eauto|]. destruct (S3 s I) as (q & i & J & LL). exists q, i. split; auto. lia.
      + intros q i f Hq H. apply in_or_app. destruct (Nat.eq_dec q (length pre)) as [->|NE]; [|right; apply (S4 q i f); auto; lia]. left. destruct H as (p' & vs & N & I & _ & _ & NE & _ & K & _). rewrite NP in N. apply Some_inj in N. subst p'. destruct (cf_loops f) as [|l ls]; [congruence|]. destruct (proj1 (K l) (or_introl eq_refl)) as [K1 K2].
        assert (X := C i vs l I K1 K2). apply in_map_iff in X as ([k g] & X & Y). cbn in X. subst k. apply in_map_iff. exists (i + o, g). split; auto. f_equal. lia.
  Qed.
End Collect.

(** ** the whole stage *)
Definition prims (active : Z -> bool) (origN : Z -> q3) (cfs : list mesh_cut_face) : nat -> list edge := axial_primal active (fun t i => q3_nth (origN t) i) cfs.
Definition pieces_of (origN : Z -> q3) (cfs : list mesh_cut_face) : list (Z * cut_face) := map (fun '(i, f) => (i, piece_face origN f)) (faces_vertex cfs).
Lemma zip_nth (A B C : Type) (g : A -> B -> C) a b n : nth_error (zipwith g a b) n = match nth_error a n, nth_error b n with Some x, Some y => Some (g x y) | _, _ => None end.
Proof. revert b n. induction a as [|x a IH]; intros [|y b] [|n]; cbn; auto. - destruct (nth_error a n); auto. Qed.

Section Whole.
  Variables (base : mesh3) (active : Z -> bool) (origN : Z -> q3) (cfs : list mesh_cut_face) (planes : list plane).
  Let V := AV3 base.
  Hypothesis PO : pieces_ok V cfs.
  Hypothesis OK : forall p, In p planes -> plane_ok V p.
  Hypothesis HC : forall p, In p planes -> has_cell p.
  Lemma pieces_In k f : In (k, f) (pieces_of origN cfs) <-> 0 <= k /\ exists c, nth_error cfs (Z.to_nat k) = Some c /\ (3 <= length (mcf_loop c))%nat /\ f = piece_face origN c.
  Proof.
    unfold pieces_of. rewrite in_map_iff. split.
    - intros ([i c] & E & I). apply pair_equal_spec in E as [-> <-]. apply c102_input_faces in I as (A & B & C). split; auto. exists c. auto.
    - intros (A & c & B & C & ->). exists (k, c). split; auto. apply c102_input_faces. auto.
  Qed.
  Lemma pieces_sorted : ssorted Z.compare (map fst (pieces_of origN cfs)).
  Proof.
    unfold pieces_of, faces_vertex. rewrite map_map. assert (G : forall l a, ssorted Z.compare (map (fun p => fst (let '(i, f) := p in (i, piece_face origN f))) (filter (fun p => (2 <? length (mcf_loop (snd p)))%nat) (combine (zrange a (length l)) l))) /\
      forall k, In k (map (fun p => fst (let '(i, f) := p in (i, piece_face origN f))) (filter (fun p => (2 <? length (mcf_loop (snd p)))%nat) (combine (zrange a (length l)) l))) -> a <= k).
    { induction l as [|x l IH]; intros a; [cbn; split; [constructor|intros k []]|].
      assert (ZR : zrange a (length (x :: l)) = a :: zrange (a + 1) (length l)) by (unfold zrange; cbn [length seq map]; rewrite <- seq_shift, map_map; f_equal; [lia|apply map_ext; intros; lia]). rewrite ZR. cbn [combine filter snd]. destruct (IH (a + 1)) as [S B]. destruct (2 <? length (mcf_loop x))%nat.
      - cbn [map fst]. split; [constructor; auto; apply Forall_forall; intros k K; apply B in K; rewrite Z.compare_lt_iff; lia|]. intros k [<-|K]; [lia|apply B in K; lia].
      - split; auto. intros k K. apply B in K. lia. }
    apply G.
  Qed.
  Variables (fs : list (Z * cut_face)) (mi : list Z) (ax : list (list Z)).
  Hypothesis CF : compute_faces V active origN cfs planes = Some (fs, mi, ax).
  Lemma stage_parts : exists fss, fs = pieces_of origN cfs ++ concat fss /\ mi = map fst (pieces_of origN cfs) /\ ssorted Z.compare (map fst fs) /\ (forall k, In k (map fst fs) -> 0 <= k) /\
    Forall2 (fun p fs => exists o, 0 <= o /\ plane_faces V (prims active origN cfs) o p = Some fs) planes fss /\
    (forall s k, In s ax -> In k s -> In k (map fst (concat fss))).
  Proof.
    unfold compute_faces in CF. destruct (offsets (Z.of_nat (length cfs)) planes) as [ns|] eqn:EO; [|discriminate]. cbv zeta in CF. fold (prims active origN cfs) in CF. fold (pieces_of origN cfs) in CF.
    match type of CF with context [sequence ?x] => destruct (sequence x) as [fss|] eqn:EQ; [|discriminate] end. apply Some_inj, pair_equal_spec in CF as [CF1 CF2]. apply pair_equal_spec in CF1 as [CF0 CF1].
    destruct (@collect_spec V (prims active origN cfs) planes (Z.of_nat (length cfs)) ns fss (pieces_of origN cfs)) as (A & B & C & D); auto using pieces_sorted; [lia| |].
    { intros k K. apply in_map_iff in K as ([k' f] & <- & K). apply pieces_In in K as (P & c & N & _). apply nth_error_Some_lt in N. cbn [fst]. lia. }
    exists fss. rewrite <- CF0, A. split; auto. split; auto. split; auto. split; auto. split.
    - clear - D. induction D as [|a b ? ? (o & L & E)]; constructor; auto. exists o. split; auto. lia.
    - intros s k S K. assert (G : forall a, In k (set_of_list Z.compare (flat_map (fun '(p, fs) => if Nat.eqb (pl_axis p) a then map fst fs else []) (combine planes fss))) -> In k (map fst (concat fss))).
      { intros a I. apply (set_of_list_In Zcompare_total), in_flat_map in I as ([p l] & I & J). apply in_combine_r in I. destruct (Nat.eqb _ _); [|destruct J]. apply in_map_iff in J as (x & <- & J). apply in_map, in_concat. eauto. }
      rewrite <- CF2 in S. destruct S as [<-|[<-|[<-|[]]]]; eapply G; eauto.
  Qed.
  (** what compute_faces leaves is what C134 asks for *)
  Lemma stage_of bary : stage_ok base fs (map (fun i => (i, bary i)) mi) ax.
  Proof.
    destruct stage_parts as (fss & EF & EM & S & P & F & A). split; auto.
    - intros k c I. split; [apply P, in_map_iff; exists (k, c); auto|]. rewrite EF in I. apply in_app_or in I as [I|I].
      + apply pieces_In in I as (Hk & x & N & L & ->). cbn. split; auto. split; [discriminate|]. intros l [<-|[]]. split; [intros E; rewrite E in L; cbn in L; lia|]. intros i I. apply (PO x i); auto. eapply nth_error_In; eauto.
      + apply in_concat in I as (l & L & I). assert (G : exists p o, In p planes /\ 0 <= o /\ plane_faces V (prims active origN cfs) o p = Some l). { clear - F L. induction F as [|p q ? ? (o & Ho & E) F IH]; [destruct L|]. destruct L as [<-|L]; [exists p, o; cbn; auto|]. destruct (IH L) as (p' & o' & X & Y). exists p', o'. cbn; auto. }
        destruct G as (p & o & Ip & Ho & E). assert (PP := OK _ Ip). destruct (proj1 (proj2 (plane_faces_spec _ Ho PP E)) k c I) as (i & vs & -> & B1 & B2 & B3 & B4 & B5). split; [rewrite B2; auto|]. split; auto. intros l' I'. apply B5 in I' as [I1 I2]. split; [destruct I2 as (_ & I2 & _); intros ->; cbn in I2; lia|].
        intros j J. destruct (po_loops PP _ _ _ B1 I1 j J) as (X & Y & _). auto.
    - assert (E : map fst (map (fun i => (i, bary i)) mi) = mi) by (rewrite map_map; apply map_id). rewrite E, EM. split; [apply (ssorted_NoDup Zcompare_total pieces_sorted)|]. intros k K. rewrite EF, map_app. apply in_or_app. auto.
    - intros s k I K. rewrite EF, map_app. apply in_or_app. right. eapply A; eauto.
  Qed.
End Whole.

Record inputs_ok (base : mesh3) (cfs : list mesh_cut_face) (planes : list plane) : Prop := {
  io_pieces : pieces_ok (AV3 base) cfs; io_planes : forall p, In p planes -> plane_ok (AV3 base) p; io_cells : forall p, In p planes -> has_cell p }.
Lemma to_mesh_inv lnk1 lnk2 ord level base active origN bary cfs planes m : inputs_ok base cfs planes -> faces_to_mesh lnk1 lnk2 ord level base active origN bary cfs planes = Some m ->
  exists fs mi ax, compute_faces (AV3 base) active origN cfs planes = Some (fs, mi, ax) /\ stage_ok base fs (map (fun i => (i, bary i)) mi) ax /\ generate3 lnk1 lnk2 ord level base fs (map (fun i => (i, bary i)) mi) ax = Some m.
Proof.
  intros [A B C] E. unfold faces_to_mesh in E. destruct (compute_faces (AV3 base) active origN cfs planes) as [[[fs mi] ax]|] eqn:CF; [|discriminate]. exists fs, mi, ax. split; auto. split; auto. apply (stage_of _ _ _ A B C CF).
Qed.
Lemma bary_entries lnk1 lnk2 ord level base fs mesh axial m k x : stage_ok base fs mesh axial -> generate3 lnk1 lnk2 ord level base fs mesh axial = Some m ->
  (In (k, x) (m_bary m) <-> exists f, id_of fs k f /\ In (f, x) mesh).
Proof.
  intros SO GE. destruct (gen_inv _ _ _ _ SO GE) as (b & C & B & BK & EC & EM).
  destruct (c103_bary (PropsGen3Whole.g_wf _ _ _ _ SO BK)) as (r & EB & SR & HB).
  assert (EQ : m_bary m = r).
  { unfold generate3 in GE. rewrite BK in GE. cbv zeta in GE. rewrite EC, EB in GE. destruct (out_faces _) as [F|]; [|discriminate]. destruct (out_axial _) as [A|]; [|discriminate]. destruct (sequence F) as [F'|]; [|discriminate].
    cbn [option_map] in GE. apply Some_inj in GE. rewrite <- GE. reflexivity. }
  assert (KEY : keys (Gen3.g_faces (after_bake b fs mesh axial)) = map fst fs) by (apply (g_faces_keys _ _ _ _ SO BK)).
  rewrite EQ, HB. unfold PropsGen3.place, id_of. rewrite KEY. split.
  - intros (id & I & n & -> & N). exists id. rewrite Nat2Z.id. split; [split; [lia|auto]|auto].
  - intros (id & [H N] & I). exists id. split; [auto|]. exists (Z.to_nat k). split; [lia|auto].
Qed.
Lemma app_nth_cases (A : Type) (a b : list A) n x : nth_error (a ++ b) n = Some x -> nth_error a n = Some x \/ (length a <= n)%nat /\ nth_error b (n - length a) = Some x.
Proof. intros H. destruct (lt_dec n (length a)); [left; rewrite nth_error_app1 in H by lia; auto|right; rewrite nth_error_app2 in H by lia; split; [lia|auto]]. Qed.

(** C137. The faces of the mesh are, each exactly once, the pieces of the input surface with three or more vertices and the faces of the slices with a kept loop,
    with the vertices, masks, ids and normals of their source; barycentric coordinates are attached to exactly the pieces. *)
Theorem c137_faces lnk1 lnk2 ord level base active origN bary cfs planes m : inputs_ok base cfs planes -> faces_to_mesh lnk1 lnk2 ord level base active origN bary cfs planes = Some m ->
  exists srcs, Forall2 (comes_from (AV3 base) (prims active origN cfs) origN cfs planes) srcs (m_faces m) /\ NoDup srcs /\
    (forall s f, comes_from (AV3 base) (prims active origN cfs) origN cfs planes s f -> In s srcs) /\
    forall k s b, nth_error srcs k = Some s -> (In (Z.of_nat k, b) (m_bary m) <-> exists i, s = FromInput i /\ b = bary (Z.of_nat i)).
Proof.
  intros IO EM. destruct (to_mesh_inv _ _ _ _ _ _ _ IO EM) as (fs & mi & ax & CF & SO & GE). destruct IO as [A B C]. destruct (@stage_parts base active origN cfs planes B C fs mi ax CF) as (fss & EF & EMI & S & P & F & _). destruct (c134_faces _ _ _ _ SO GE) as (LF & MF & _).
  set (pcs := pieces_of origN cfs) in *. set (es := map cf_ext (m_faces m)). assert (Lfs : length fs = (length pcs + length (concat fss))%nat) by (rewrite EF, app_length; auto). assert (Les : length es = length fs) by (unfold es; rewrite map_length; auto).
  assert (EQ : m_faces m = zipwith set_ext es (map snd fs)).
  { apply nth_error_ext. intros n. rewrite zip_nth, nth_error_map. unfold es. rewrite nth_error_map. destruct (nth_error fs n) as [[i f]|] eqn:N.
    - destruct (MF _ _ _ N) as (e & E & _). rewrite E. reflexivity.
    - cbn. assert (X : nth_error (m_faces m) n = None) by (apply nth_error_None; rewrite LF; apply nth_error_None; auto). rewrite X. auto. }
  set (e1 := firstn (length pcs) es). set (e2 := skipn (length pcs) es). assert (EE : es = e1 ++ e2) by (symmetry; apply firstn_skipn). assert (L1 : length e1 = length pcs) by (unfold e1; rewrite firstn_length; lia). assert (L2 : length e2 = length (concat fss)) by (unfold e2; rewrite skipn_length; lia). clearbody e1 e2.
  destruct (@plane_sources (AV3 base) (prims active origN cfs) [] planes fss e2 B F L2) as (srcs & S1 & S2 & S3 & S4). cbn [app length] in *.
  assert (Z1 : zipwith set_ext (e1 ++ e2) (map snd pcs ++ map snd (concat fss)) = zipwith set_ext e1 (map snd pcs) ++ zipwith set_ext e2 (map snd (concat fss))).
  { clear - L1. clearbody pcs. revert pcs L1. induction e1 as [|e e1 IH]; intros [|[k f] pcs] L1; cbn in *; try discriminate; auto. f_equal. apply IH. lia. }
  assert (PI := pieces_In origN cfs). fold pcs in PI. assert (PS := pieces_sorted origN cfs). fold pcs in PS.
  exists (map (fun '(k, _) => FromInput (Z.to_nat k)) pcs ++ srcs). split; [|split; [|split]].
  - rewrite EQ, EE, EF, map_app, Z1. apply Forall2_app.
    + assert (G : forall l es, incl l pcs -> length es = length l -> Forall2 (comes_from (AV3 base) (prims active origN cfs) origN cfs planes) (map (fun '(k, _) => FromInput (Z.to_nat k)) l) (zipwith set_ext es (map snd l))).
      { induction l as [|[k f] l IHl]; intros [|e es'] I LL; cbn [length] in LL; try discriminate; cbn [map zipwith]; constructor; [|apply IHl; [intros x X; apply I; right; auto|lia]]. destruct (proj1 (PI k f)) as (Hk & c & N & L & ->); [apply I; left; auto|]. exists c. cbn. auto 10. }
      apply G; auto. intros x X; auto.
    + clear - S1. induction S1 as [|s f ? ? (q & i & -> & H)]; constructor; auto.
  - apply NoDup_app_disjoint; auto.
    + assert (ND := ssorted_NoDup Zcompare_total PS). assert (PP : forall k f, In (k, f) pcs -> 0 <= k) by (intros k f I; apply PI in I as [X _]; auto). clear - ND PP. clearbody pcs. induction pcs as [|[k f] l IH]; cbn; constructor; inversion ND; subst.
      * intros I. apply in_map_iff in I as ([j g] & J & I). injection J as J. assert (j = k) by (apply Z2Nat.inj; [apply (PP j g); right; auto|apply (PP k f); left; auto|auto]). subst j. apply H1. apply in_map_iff. exists (k, g). auto.
      * apply IH; auto. intros j g I. apply (PP j g). right; auto.
    + intros s I J. apply in_map_iff in I as ([k f] & <- & I). apply S3 in J as (q & i & J & _). discriminate.
  - intros [i|q i] f H; apply in_or_app; [left|right].
    + destruct H as (c & N & L & _). apply in_map_iff. exists (Z.of_nat i, piece_face origN c). rewrite Nat2Z.id. split; auto. apply PI. split; [lia|]. exists c. rewrite Nat2Z.id. auto.
    + apply (S4 q i f); auto. lia.
  - intros k s b N. rewrite (bary_entries _ _ _ _ _ _ SO GE).
    assert (MI : forall f y, In (f, y) (map (fun i => (i, bary i)) mi) <-> In f (map fst pcs) /\ y = bary f).
    { intros f y. rewrite EMI, in_map_iff. split; [intros (i & E & I); apply pair_equal_spec in E as [-> <-]; auto|intros [I ->]; exists f; auto]. }
    assert (KEYS : map fst fs = map fst pcs ++ map fst (concat fss)) by (rewrite EF, map_app; auto). apply app_nth_cases in N as [N|[Lk N]].
    + rewrite nth_error_map in N. destruct (nth_error pcs k) as [[j f]|] eqn:NP; [|discriminate]. cbn in N. apply Some_inj in N. subst s. assert (IJ := nth_error_In _ _ NP). assert (IDJ : id_of fs (Z.of_nat k) j). { split; [lia|]. rewrite Nat2Z.id, KEYS, nth_error_app1 by (rewrite map_length; eapply nth_error_Some_lt; eauto). rewrite nth_error_map, NP. auto. }
      destruct (proj1 (PI _ _) IJ) as [J0 _]. split.
      * intros (g & [_ ID] & I). destruct IDJ as [_ IDJ]. rewrite IDJ in ID. apply Some_inj in ID. subst g. apply MI in I as [_ ->]. exists (Z.to_nat j). rewrite Z2Nat.id; auto.
      * intros (i & E & ->). injection E as <-. exists j. split; auto. apply MI. split; [apply in_map_iff; exists (j, f); auto|rewrite Z2Nat.id; auto].
    + split.
      * intros (g & [_ ID] & I). exfalso. rewrite map_length in Lk. apply MI in I as [I _]. rewrite Nat2Z.id, KEYS, nth_error_app2 in ID by (rewrite map_length; lia). apply nth_error_In in ID. assert (ND := ssorted_NoDup Zcompare_total S). rewrite KEYS in ND. destruct (PropsGen3.NoDup_app_parts _ _ ND) as (_ & _ & X). eapply X; eauto.
      * intros (i & -> & _). apply nth_error_In in N. apply S3 in N as (q & j & X & _). discriminate.
Qed.

(** C137. It succeeds if no loop of boundary edges of a slice lies on a single grid line and the squares around which such loops run are in the slice's mask. *)
Theorem c137_defined lnk1 lnk2 ord level base active origN bary cfs planes : inputs_ok base cfs planes ->
  (forall p i vs l x y, In p planes -> In (i, vs) (sl_faces (pl_slice p)) -> In l vs -> l <> [] -> is_boundary_cell (sl_bes (pl_slice p)) l = true -> cell_contains (AV3 base) l x -> cell_contains (AV3 base) l y ->
     square_of (pl_axis p) x = square_of (pl_axis p) y /\ in_shape (sl_shape (pl_slice p)) (square_of (pl_axis p) x) = true) ->
  exists m, faces_to_mesh lnk1 lnk2 ord level base active origN bary cfs planes = Some m.
Proof.
  intros IO HB. destruct IO as [A B C]. assert (D : exists r, compute_faces (AV3 base) active origN cfs planes = Some r).
  { unfold compute_faces. cbv zeta. set (P := axial_primal active _ cfs).
    assert (E1 : forall l n, incl l planes -> exists ns, offsets n l = Some ns).
    { induction l as [|p l IH]; intros n I; [exists []; auto|]. cbn [offsets]. destruct (C p) as (i & Hi & _); [apply I; left; auto|]. destruct (pl_ids p) as [|x t]; [destruct Hi|]. cbn [shift_ids map max_coeff]. match goal with |- context [offsets ?o l] => destruct (IH o) as [ns E] end; [intros q Q; apply I; right; auto|]. rewrite E. eexists; reflexivity. }
    destruct (E1 planes (Z.of_nat (length cfs))) as [ns ->]; [intros p Hp; auto|].
    assert (E2 : exists fss, sequence (map (fun '(n, p) => plane_faces (AV3 base) P n p) (combine ns planes)) = Some fss).
    { destruct (PropsQueries3.sequence_map (fun '(n, p) => plane_faces (AV3 base) P n p) (combine ns planes)) as (r & E & _); [|eauto]. intros [n p] I. apply in_combine_r in I. unfold plane_faces. cbv zeta.
      destruct (faces_axis (AV3 base) (P (pl_axis p)) (pl_axis p) (shifted n (pl_slice p)) (sl_faces (shifted n (pl_slice p)))) eqn:EF; [discriminate|]. exfalso. revert EF. apply (@c102_defined_partial (AV3 base) (P (pl_axis p)) (pl_axis p) (pl_coord p)); [apply (po_axis (B p I))| |].
      - intros i vs l J L. cbn [shifted sl_faces] in J. apply in_map_iff in J as ([i' vs'] & J & K). apply pair_equal_spec in J as [_ ->]. eapply (po_loops (B p I)); eauto.
      - intros i vs l x y J L. cbn [shifted sl_faces] in J. apply in_map_iff in J as ([i' vs'] & J & K). apply pair_equal_spec in J as [_ ->]. eapply HB; eauto. }
    destruct E2 as [fss ->]. eexists; reflexivity. }
  destruct D as [[[fs mi] ax] CF]. unfold faces_to_mesh. rewrite CF. apply c134_defined. apply (stage_of _ _ _ A B C CF).
Qed.
(** C137. A piece of the surface that lies in a grid plane and faces the positive direction is not made a face a second time. *)
Theorem c137_once lnk1 lnk2 ord level base active origN bary cfs planes m c a z f v l k : inputs_ok base cfs planes -> faces_to_mesh lnk1 lnk2 ord level base active origN bary cfs planes = Some m ->
  In c cfs -> active (mcf_parent c) = true -> nth_error (mcf_mask c) a = Some (Some z) -> (0 < q3_nth (origN (mcf_parent c)) a)%Qc ->
  In f (m_faces m) -> cf_id f = AxialFace (Z.of_nat a) v -> In l (cf_loops f) -> (k <= length (mcf_loop c))%nat -> l <> rotate k (mcf_loop c).
Proof.
  intros IO EM IC AC MK NP IF ID IL Hk E. destruct (c137_faces _ _ _ _ _ _ _ IO EM) as (srcs & F & _). apply In_nth_error in IF as (n & N). apply Forall2_nth in F as [LF F]. destruct (nth_error srcs n) as [s|] eqn:NS; [|apply nth_error_None in NS; apply nth_error_Some_lt in N; lia].
  specialize (F n s f NS N). destruct s as [i|q i].
  - destruct F as (x & _ & _ & _ & _ & X & _). congruence.
  - destruct F as (p & vs & _ & _ & X & _ & _ & _ & K & _). assert (EA : pl_axis p = a) by (rewrite ID in X; injection X as X _; lia). apply K in IL as [_ (_ & H3 & H4 & _)]. apply H4. rewrite EA. unfold prims. apply axial_primal_In. exists c, z. repeat (split; auto).
    rewrite (proj2 (qltb_lt _ _) NP). subst l. rewrite rotate_length in H3. apply smallest_rotate; auto. lia.
Qed.

(** C137. The three index sets kept of the axes' faces: for each axis the faces of its slices. *)
Theorem c137_axis_sets base active origN cfs planes fs mi ax : inputs_ok base cfs planes -> compute_faces (AV3 base) active origN cfs planes = Some (fs, mi, ax) ->
  length ax = 3%nat /\ forall a s k, nth_error ax a = Some s -> (In k s <-> exists f z, In (k, f) fs /\ cf_id f = AxialFace (Z.of_nat a) z).
Proof.
  intros [PO OK HC] CF. destruct (@stage_parts base active origN cfs planes OK HC fs mi ax CF) as (fss & EF & EM & S & P & F & _). unfold compute_faces in CF. destruct (offsets (Z.of_nat (length cfs)) planes) as [ns|] eqn:EO; [|discriminate]. cbv zeta in CF. fold (prims active origN cfs) in CF. fold (pieces_of origN cfs) in CF.
  match type of CF with context [sequence ?x] => destruct (sequence x) as [fss'|] eqn:EQ; [|discriminate] end. apply Some_inj, pair_equal_spec in CF as [CF1 CF2]. apply pair_equal_spec in CF1 as [CF0 CF1].
  assert (C := @collect_spec (AV3 base) (prims active origN cfs) planes (Z.of_nat (length cfs)) ns fss' (pieces_of origN cfs)). destruct C as (A & _); auto; [lia|apply pieces_sorted| |].
  { intros k K. apply in_map_iff in K as ([k' f] & <- & K). apply pieces_In in K as (Q & c & N & _). apply nth_error_Some_lt in N. cbn [fst]. lia. }
  rewrite A, EF in CF0. apply app_inv_head in CF0. assert (F' : Forall2 (fun p fs => exists o, plane_faces (AV3 base) (prims active origN cfs) o p = Some fs) planes fss').
  { clear - EQ EO. revert fss' ns EO EQ. generalize (Z.of_nat (length cfs)) as n. induction planes as [|p planes IH]; intros n fss' ns EO EQ; cbn [offsets] in EO.
    - apply Some_inj in EO. subst. cbn in EQ. apply Some_inj in EQ. subst. constructor.
    - destruct (max_coeff _) as [x|]; [|discriminate]. destruct (offsets (x + 1) planes) as [os|] eqn:EO'; [|discriminate]. cbn [option_map] in EO. apply Some_inj in EO. subst ns. cbn [combine map sequence] in EQ. destruct (plane_faces (AV3 base) (prims active origN cfs) n p) as [l|] eqn:E; [|discriminate].
      match type of EQ with context [sequence ?x] => destruct (sequence x) as [r|] eqn:ER; [|discriminate] end. cbn [option_map] in EQ. apply Some_inj in EQ. subst fss'. constructor; eauto. }
  assert (ID : forall p l k f, In (p, l) (combine planes fss') -> In (k, f) l -> cf_id f = AxialFace (Z.of_nat (pl_axis p)) (pl_coord p)).
  { clear - F'. induction F' as [|p l planes fss' (o & E) F' IH]; intros p' l' k f I J; [destruct I|]. destruct I as [I|I]; [|eapply IH; eauto]. apply pair_equal_spec in I as [<- <-]. unfold plane_faces in E. destruct (faces_axis _ _ _ _ _) as [r|]; [|discriminate]. cbn [option_map] in E. apply Some_inj in E. subst l. apply in_map_iff in J as ([i ls] & J & _). apply pair_equal_spec in J as [_ <-]. reflexivity. }
  assert (G : forall a k, In k (set_of_list Z.compare (flat_map (fun '(p, fs) => if Nat.eqb (pl_axis p) a then map fst fs else []) (combine planes fss'))) <-> exists f z, In (k, f) fs /\ cf_id f = AxialFace (Z.of_nat a) z).
  { intros a k. rewrite (set_of_list_In Zcompare_total), in_flat_map. split.
    - intros ([p l] & I & J). destruct (Nat.eqb_spec (pl_axis p) a) as [E|]; [|destruct J]. apply in_map_iff in J as ([k' f] & <- & J). exists f, (pl_coord p). split; [|rewrite <- E; eapply ID; eauto]. rewrite EF, <- CF0. apply in_or_app. right. apply in_concat. exists l. split; auto. eapply in_combine_r; eauto.
    - intros (f & z & I & E). rewrite EF in I. apply in_app_or in I as [I|I]; [apply pieces_In in I as (_ & c & _ & _ & ->); discriminate E|]. rewrite <- CF0 in I. apply in_concat in I as (l & L & I). apply In_nth_error in L as [n L].
      destruct (nth_error planes n) as [p|] eqn:N; [|exfalso; apply nth_error_None in N; apply nth_error_Some_lt in L; assert (X : length planes = length fss') by (clear - F'; induction F'; cbn; auto); lia].
      assert (IC : In (p, l) (combine planes fss')) by (apply (nth_error_In _ n); rewrite combine_nth, N, L; auto). exists (p, l). split; auto. assert (X := ID _ _ _ _ IC I). rewrite E in X. injection X as X _. rewrite (proj2 (Nat.eqb_eq _ _)) by lia. apply in_map_iff. exists (k, f). auto. }
  rewrite <- CF2. split; auto. intros [|[|[|a]]] s k N; cbn in N; try (destruct a; discriminate); apply Some_inj in N; subst s; apply G.
Qed.

(** the loops of the mesh's faces are simple polygons, and no face uses an edge in both directions *)
Definition simple_loops (m : mesh3) : Prop := forall f, In f (m_faces m) -> (forall L, In L (cf_loops f) -> NoDup L /\ (3 <= length L)%nat) /\
  forall L L' a b, In L (cf_loops f) -> In L' (cf_loops f) -> cyc_next L a b -> ~ cyc_next L' b a.
(** C137. The mesh so made is a generated mesh in the sense of C73, C82 and C84, its exterior cells tile the uncut part, and if no face is folded every face inside the
    domain with nothing recorded behind it lies on exactly two cells, once with each sign. *)
Theorem c137_consistent lnk1 lnk2 ord level base active origN bary cfs planes m : inputs_ok base cfs planes -> tiling_case (cshape base) (act3 base) level -> faces_to_mesh lnk1 lnk2 ord level base active origN bary cfs planes = Some m ->
  (exists cubes0, generated m cubes0 /\ AdaptiveSpec.tiles (cshape m) (uncut3 m) cubes0) /\
  (simple_loops m -> m_folded m = [] -> forall k fc, is_cut_face m k fc -> inside_face m fc -> exists i j, i <> j /\ bounds3 m i k true /\ bounds3 m j k false /\ forall l sg, bounds3 m l k sg -> l = if sg then i else j).
Proof.
  intros IO TC EM. destruct (to_mesh_inv _ _ _ _ _ _ _ IO EM) as (fs & mi & ax & CF & SO & GE). split; [apply (c134_generated _ _ _ SO TC GE)|]. intros SL NF k fc HF IF. destruct (id_of_ex _ _ _ _ SO GE HF) as (f & c & ID & N & _).
  destruct (c134_faces _ _ _ _ SO GE) as (LF & MF & _). assert (PF : plain_faces (loops_of fs)).
  { split; [unfold loops_of; rewrite map_map; replace (map _ fs) with (map fst fs) by (apply map_ext; intros []; auto); apply (ssorted_NoDup Zcompare_total (so_map SO))|]. intros g loops I. unfold loops_of in I. apply in_map_iff in I as ([g' h] & E & I). apply pair_equal_spec in E as [-> <-].
    destruct (so_face SO _ _ I) as (P & _ & NE & _). split; auto. split; auto. destruct (In_nth_error _ _ I) as (n & Nn). destruct (MF _ _ _ Nn) as (e & X & _). apply nth_error_In in X. destruct (SL _ X) as [S1 S2]. cbn [set_ext cf_loops] in S1, S2. split; [intros L HL; destruct (S1 L HL); auto|].
    intros a b (ls & C & J & JC & CN) (ls' & C' & J' & JC' & CN'). assert (GG : forall x, In (g, x) (map (fun '(i, f) => (i, cf_loops f)) fs) -> x = cf_loops h).
    { intros x J0. apply in_map_iff in J0 as ([g2 h2] & E & J0). apply pair_equal_spec in E as [-> <-]. f_equal. assert (S := so_map SO). apply (map_find_Some Zcompare_total) in I; [|exact S]. apply (map_find_Some Zcompare_total) in J0; [|exact S]. congruence. }
    apply GG in J. apply GG in J'. subst ls ls'. cbn [fst snd] in *. apply (S2 C C' a b JC JC' CN CN'). }
  apply (proj1 (c134_two_cells _ _ _ _ SO PF GE HF IF ID)). rewrite NF. auto.
Qed.

(** ** checks by computation *)
Definition planeb (V : Z -> vertex) (p : plane) : bool :=
  (pl_axis p <? 3)%nat && incb (map fst (sl_faces (pl_slice p))) &&
  forallb (fun x => (0 <=? fst x) && existsb (Z.eqb (fst x)) (pl_ids p) &&
    forallb (fun l => forallb (fun j => vertexb (V j) && match nth_error (pos (V j)) (pl_axis p) with Some q => qeqb q (Z2Qc (pl_coord p)) | None => false end) l) (snd x)) (sl_faces (pl_slice p)).
Lemma planeb_ok V p : planeb V p = true -> plane_ok V p.
Proof.
  unfold planeb. intros H. apply andb_true_iff in H as [H H3]. apply andb_true_iff in H as [H1 H2]. apply Nat.ltb_lt in H1. apply incb_ok in H2. rewrite forallb_forall in H3. split; auto.
  - intros i vs I. specialize (H3 _ I). cbn [fst snd] in H3. apply andb_true_iff in H3 as [H3 _]. apply andb_true_iff in H3 as [H3 H4]. apply Z.leb_le in H3. split; auto. apply existsb_exists in H4 as (x & X & Y). apply Z.eqb_eq in Y. subst; auto.
  - intros i vs l I L j J. specialize (H3 _ I). cbn [fst snd] in H3. apply andb_true_iff in H3 as [_ H3]. rewrite forallb_forall in H3. specialize (H3 _ L). rewrite forallb_forall in H3. specialize (H3 _ J). apply andb_true_iff in H3 as [H3 H4]. apply vertexb_ok in H3 as [H5 H6]. split; auto. split; auto. destruct (nth_error _ _) as [q|]; [|discriminate]. apply qeqb_eq in H4. subst; auto.
Qed.
Definition inputsb (base : mesh3) (cfs : list mesh_cut_face) (planes : list plane) : bool :=
  forallb (fun c => forallb (fun j => vertexb (AV3 base j)) (mcf_loop c)) cfs && forallb (planeb (AV3 base)) planes && forallb (fun p => existsb (Z.leb 0) (pl_ids p)) planes.
Lemma inputsb_ok base cfs planes : inputsb base cfs planes = true -> inputs_ok base cfs planes.
Proof.
  unfold inputsb. intros H. apply andb_true_iff in H as [H H3]. apply andb_true_iff in H as [H1 H2]. rewrite forallb_forall in H1, H2, H3. split.
  - intros c j I J. specialize (H1 _ I). rewrite forallb_forall in H1. apply vertexb_ok. auto.
  - intros p I. apply planeb_ok. auto.
  - intros p I. specialize (H3 _ I). apply existsb_exists in H3 as (x & X & Y). apply Z.leb_le in Y. exists x. auto.
Qed.
(** a slice in which every square is cut *)
Definition plain_slice (fs : list (Z * list (list Z))) : slice := mkSlice fs (fun _ => 1%Qc) [] [1; 1] (fun _ => false).

(** the two cells of C134's example, one of them cut in half by a square: one piece and six slices; in the plane x = 0 the library also reports a cell with index 2 of negative area *)
Definition slab_pieces : list mesh_cut_face := [mkMCF [12; 14; 15; 13] 0 [None; None; None]].
Definition slab_planes : list plane :=
  [mkPlane 0 0 [0; 0; 2] (mkSlice [(0, [[0; 2; 3; 1]]); (2, [[0; 1; 3; 2]])] (fun i => if i =? 2 then (- (1))%Qc else 1%Qc) [] [1; 1] (fun _ => false)); mkPlane 0 1 [0; -1] (plain_slice [(0, [[4; 6; 7; 5]])]);
   mkPlane 1 0 [0; 1] (plain_slice [(0, [[13; 12; 0; 1]]); (1, [[5; 4; 12; 13]])]); mkPlane 1 1 [0; 1] (plain_slice [(0, [[2; 3; 15; 14]]); (1, [[14; 15; 7; 6]])]);
   mkPlane 2 0 [1; 0] (plain_slice [(0, [[12; 14; 2; 0]]); (1, [[4; 6; 14; 12]])]); mkPlane 2 1 [-1; 0; 1] (plain_slice [(0, [[15; 3; 1; 13]]); (1, [[7; 15; 13; 5]])])].
Definition slab_normals (t : Z) : q3 := (1, 0, 0)%Qc.
Definition no_bary (i : Z) : bary_face := mkBary [] i.
Definition slab_result : option mesh3 := faces_to_mesh first_link first_link slab_ord (Some 0) slab (fun _ => true) slab_normals no_bary slab_pieces slab_planes.
Example c137_case : inputs_ok slab slab_pieces slab_planes /\ tiling_case (cshape slab) (act3 slab) (Some 0) /\
  exists m, slab_result = Some m /\ map (fun f => (cf_id f, cf_loops f, cf_mask f)) (m_faces m) =
      [(MeshFace 0, [[12; 14; 15; 13]], [None; None; None]); (AxialFace 0 0, [[0; 2; 3; 1]], [Some 0; None; None]); (AxialFace 0 1, [[4; 6; 7; 5]], [Some 1; None; None]);
       (AxialFace 1 0, [[13; 12; 0; 1]], [None; Some 0; None]); (AxialFace 1 0, [[5; 4; 12; 13]], [None; Some 0; None]); (AxialFace 1 1, [[2; 3; 15; 14]], [None; Some 1; None]); (AxialFace 1 1, [[14; 15; 7; 6]], [None; Some 1; None]);
       (AxialFace 2 0, [[12; 14; 2; 0]], [None; None; Some 0]); (AxialFace 2 0, [[4; 6; 14; 12]], [None; None; Some 0]); (AxialFace 2 1, [[15; 3; 1; 13]], [None; None; Some 1]); (AxialFace 2 1, [[7; 15; 13; 5]], [None; None; Some 1])] /\
      map (fun x => (fst x, bf_parent (snd x))) (m_bary m) = [(0, 0)] /\ m_folded m = [] /\ simple_loops m /\ (exists fc, is_cut_face m 0 fc /\ inside_face m fc) /\
      map ce_faces (m_cells m) = [[(0, true); (1, false); (3, false); (5, true); (7, false); (9, true)]; [(0, false); (2, true); (4, false); (6, true); (8, false); (10, true)]].
Proof.
  split; [apply inputsb_ok; vm_compute; reflexivity|]. split; [split; auto; intros [|[|[|d]]] Hd; cbn; lia|].
  assert (C : match slab_result with Some m => forallb (fun f => match cf_loops f with [[a; b; c; d]] => nodupz [a; b; c; d] | _ => false end) (m_faces m) = true | None => False end) by (vm_compute; auto).
  destruct slab_result as [m|] eqn:E; [|vm_compute in E; discriminate]. exists m. split; auto. assert (E' := E). vm_compute in E'. apply Some_inj in E'. assert (SL : simple_loops m).
  { intros f I. rewrite forallb_forall in C. specialize (C _ I). destruct (cf_loops f) as [|[|a [|b [|c [|d [|]]]]] [|]]; try discriminate C. apply nodupz_ok in C. split.
    - intros L [<-|[]]. split; [auto|cbn; lia].
    - intros L L' x y [<-|[]] [<-|[]] (i & X & Y) (j & X' & Y'). cbn [length] in *. assert (Hi := nth_error_Some_lt _ _ _ _ X). assert (Hj := nth_error_Some_lt _ _ _ _ X'). cbn [length] in Hi, Hj.
      rewrite NoDup_nth_error in C. assert (E1 : i = ((j + 1) mod 4)%nat) by (apply C; [auto|congruence]). assert (E2 : j = ((i + 1) mod 4)%nat) by (apply C; [auto|congruence]). clear - Hi Hj E1 E2.
      destruct i as [|[|[|[|]]]]; try lia; cbn in E2; subst j; cbn in E1; lia. }
  clear C. assert (IN : exists fc, is_cut_face m 0 fc /\ inside_face m fc). { subst m. eexists. split; [split; [lia|reflexivity]|]. split; auto. intros d v [H _]. cbn in H. destruct d as [|[|[|[|]]]]; discriminate. }
  split; [subst m; reflexivity|]. split; [subst m; reflexivity|]. split; [subst m; reflexivity|]. split; auto. split; auto. subst m; reflexivity.
Qed.

(** C137. REFUTED: after a slice without a cell the numbers start again, and the faces that get a number already in use are missing in the mesh. *)
Theorem c137_lost_refuted : exists base active origN bary cfs planes m s f, pieces_ok (AV3 base) cfs /\ (forall p, In p planes -> plane_ok (AV3 base) p) /\
  faces_to_mesh first_link first_link slab_ord (Some 0) base active origN bary cfs planes = Some m /\
  comes_from (AV3 base) (prims active origN cfs) origN cfs planes s f /\ forall g, In g (m_faces m) -> cf_loops g <> cf_loops f.
Proof.
  set (planes := [mkPlane 0 0 [-1] (plain_slice []); mkPlane 0 1 [0] (plain_slice [(0, [[4; 6; 7; 5]])])]). set (f := slice_face (AV3 slab) 0 1 [[4; 6; 7; 5]]).
  destruct (faces_to_mesh first_link first_link slab_ord (Some 0) slab (fun _ => true) slab_normals no_bary slab_pieces planes) as [m|] eqn:E; [|vm_compute in E; discriminate].
  exists slab, (fun _ => true), slab_normals, no_bary, slab_pieces, planes, m, (FromSlice 1 0), f. assert (PO : forall p, In p planes -> plane_ok (AV3 slab) p) by (intros p [<-|[<-|[]]]; apply planeb_ok; vm_compute; reflexivity).
  split; [|split; [auto|split; [exact E|split]]].
  - intros c j [<-|[]] J. apply vertexb_ok. cbn [mcf_loop slab_pieces] in J. destruct J as [<-|[<-|[<-|[<-|[]]]]]; vm_compute; reflexivity.
  - assert (X := @slice_from (AV3 slab) (prims (fun _ => true) slab_normals slab_pieces) planes 1 (nth 1 planes (mkPlane 0 0 [] (plain_slice []))) 0 [(0, f)] 0 f eq_refl). cbn [Z.sub Z.opp Z.add] in X. specialize (X (Z.le_refl 0) (PO _ (or_intror (or_introl eq_refl))) eq_refl (or_introl eq_refl) None). exact X.
  - assert (C : match faces_to_mesh first_link first_link slab_ord (Some 0) slab (fun _ => true) slab_normals no_bary slab_pieces planes with Some m => map cf_loops (m_faces m) = [[[12; 14; 15; 13]]] | None => False end) by (vm_compute; auto). rewrite E in C. intros g G. apply (in_map cf_loops) in G. rewrite C in G. destruct G as [<-|[]]. discriminate.
Qed.
(** C137. REFUTED: a piece of the surface that lies in a grid plane and faces the negative direction appears twice in the mesh. *)
Theorem c137_twice_refuted : exists base active origN bary cfs planes m k j f g, inputs_ok base cfs planes /\ faces_to_mesh first_link first_link slab_ord (Some 0) base active origN bary cfs planes = Some m /\ k <> j /\
  nth_error (m_faces m) k = Some f /\ nth_error (m_faces m) j = Some g /\ cf_id f = MeshFace 0 /\ cf_id g = AxialFace 0 1 /\ exists l, cf_loops f = [rev l] /\ cf_loops g = [l].
Proof.
  set (cfs := [mkMCF [5; 7; 6; 4] 0 [Some 1; None; None]]). set (N := fun _ : Z => (- (1), 0, 0)%Qc).
  destruct (faces_to_mesh first_link first_link slab_ord (Some 0) slab (fun _ => true) N no_bary cfs slab_planes) as [m|] eqn:E; [|vm_compute in E; discriminate].
  assert (C : match faces_to_mesh first_link first_link slab_ord (Some 0) slab (fun _ => true) N no_bary cfs slab_planes with Some m => map (fun f => (cf_id f, cf_loops f)) (firstn 3 (m_faces m)) = [(MeshFace 0, [[5; 7; 6; 4]]); (AxialFace 0 0, [[0; 2; 3; 1]]); (AxialFace 0 1, [[4; 6; 7; 5]])] | None => False end) by (vm_compute; auto). rewrite E in C.
  destruct (m_faces m) as [|f [|x [|g r]]] eqn:EM; try discriminate C. cbn [firstn map] in C. injection C as C1 C2 _ _ C3 C4. exists slab, (fun _ => true), N, no_bary, cfs, slab_planes, m, 0%nat, 2%nat, f, g. split; [apply inputsb_ok; vm_compute; reflexivity|]. split; auto. split; [lia|]. rewrite EM. do 4 (split; [auto|]). exists [4; 6; 7; 5]. auto.
Qed.
