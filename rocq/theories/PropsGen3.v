(** C101 (face ids of the slices), C102 (which loops of a slice become faces), C103 (renumbering of faces in the generated mesh) and
    C104 (grid cell of a cut cell). *)
From Verif Require Import Base Num CoordMask CoordMaskSpec CoordMaskProofs Vertex VertexSpec VertexProofs VertexTypes Grid SmallestEdge SmallestEdgeSpec
  SmallestEdgeProofs AdaptiveGrid Volume Mesh Hem Queries3 Gen3 PropsHem PropsTriang PropsVertex.
Set Implicit Arguments.
Local Open Scope Z_scope.

(** * C101 *)
Lemma fold_max_ge t : forall x, x <= fold_left Z.max t x /\ (forall y, In y t -> y <= fold_left Z.max t x).
Proof.
  induction t as [|z t IH]; intros x; simpl; [split; [lia|intros ? []]|].
  destruct (IH (Z.max x z)) as [A B]. split; [lia|]. intros y [<-|H]; [lia|auto].
Qed.
Lemma max_coeff_ge ids m : max_coeff ids = Some m -> forall y, In y ids -> y <= m.
Proof.
  destruct ids as [|x t]; [discriminate|]. simpl. intros H. apply Some_inj in H. subst m. destruct (fold_max_ge t x) as [A B].
  intros y [<-|H]; auto.
Qed.

(** what it means that the slices' faces have fresh ids: at the same place the same cell, -1 stays "no cell", ids of cells start at [lo] *)
Definition renumbered (lo : Z) (ids ids' : list Z) : Prop :=
  length ids' = length ids /\
  (forall k c, nth_error ids k = Some c -> c < 0 -> nth_error ids' k = Some (-1)) /\
  (forall k c, nth_error ids k = Some c -> 0 <= c -> exists c', nth_error ids' k = Some c' /\ lo <= c') /\
  (forall k l c d, nth_error ids k = Some c -> nth_error ids l = Some d -> 0 <= c -> 0 <= d ->
     (nth_error ids' k = nth_error ids' l <-> c = d)).

Lemma shift_renumbered lo fs ids : lo <= fs -> renumbered lo ids (shift_ids fs ids).
Proof.
  intros H. unfold renumbered, shift_ids. rewrite map_length. split; auto.
  assert (K : forall k c, nth_error ids k = Some c -> nth_error (map (fun c => if 0 <=? c then c + fs else -1) ids) k = Some (if 0 <=? c then c + fs else -1)).
  { intros k c E. rewrite nth_error_map, E. auto. }
  split; [|split].
  - intros k c E Hc. rewrite (K _ _ E). destruct (Z.leb_spec 0 c); [lia|auto].
  - intros k c E Hc. rewrite (K _ _ E). destruct (Z.leb_spec 0 c); [|lia]. eexists; split; [reflexivity|lia].
  - intros k l c d E E' Hc Hd. rewrite (K _ _ E), (K _ _ E'). destruct (Z.leb_spec 0 c), (Z.leb_spec 0 d); try lia.
    split; [intros HH; apply Some_inj in HH; lia|intros ->; auto].
Qed.

Lemma renumbered_weaken lo lo' ids ids' : lo <= lo' -> renumbered lo' ids ids' -> renumbered lo ids ids'.
Proof.
  intros H (A & B & C & D). split; [auto|split; [auto|split; [|auto]]].
  intros k c E Hc. destruct (C k c E Hc) as (c' & E' & H'). exists c'. split; auto. lia.
Qed.

(** C101. If every slice has at least one cell, the ids given to the cells of the slices do not clash with the ids 0 .. n-1 of the faces
    of the input mesh, nor with those of another slice; equal cells keep equal ids. *)
Theorem c101_fresh_ids_partial : forall n planes r, 0 <= n ->
  (forall p, In p planes -> exists c, In c p /\ 0 <= c) ->
  number_planes n planes = Some r ->
  Forall2 (renumbered n) planes r /\
  (forall i j p q x y, (i < j)%nat -> nth_error r i = Some p -> nth_error r j = Some q -> In x p -> In y q -> 0 <= y -> x < y).
Proof.
  intros n planes. revert n. induction planes as [|ids t IH]; intros n r Hn HP HR; simpl in HR.
  - apply Some_inj in HR. subst r. split; [constructor|]. intros i j p q x y _ H. destruct i; discriminate.
  - destruct (max_coeff (shift_ids n ids)) as [m|] eqn:EM; [|discriminate].
    destruct (number_planes (m + 1) t) as [r'|] eqn:ER; [|discriminate]. apply Some_inj in HR. subst r.
    assert (Hm : n <= m).
    { destruct (HP ids (or_introl eq_refl)) as (c & Hc & H0). assert (HI : In (c + n) (shift_ids n ids)).
      { unfold shift_ids. apply in_map_iff. exists c. split; auto. destruct (Z.leb_spec 0 c); [auto|lia]. }
      apply (max_coeff_ge _ EM) in HI. lia. }
    destruct (IH (m + 1) r') as [A B]; auto; [lia|intros; apply HP; simpl; auto|].
    split.
    + constructor; [apply shift_renumbered; lia|].
      clear -A Hm. induction A; constructor; auto. eapply renumbered_weaken; [|eauto]. lia.
    + intros i j p q x y Hij Hp Hq Hx Hy H0. destruct i as [|i].
      * simpl in Hp. apply Some_inj in Hp. subst p. destruct j as [|j]; [lia|]. simpl in Hq.
        assert (x <= m) by (eapply max_coeff_ge; eauto).
        assert (HQ := nth_error_Some_lt _ _ _ _ Hq). assert (HL : length t = length r') by (rewrite Forall2_nth in A; tauto). rewrite <- HL in HQ.
        destruct (nth_error_lt _ t j HQ) as (p0 & Hp0).
        assert (HRN : renumbered (m + 1) p0 q) by (rewrite Forall2_nth in A; destruct A as [_ A]; eapply A; eauto).
        destruct HRN as (L & C1 & C2 & _). apply In_nth_error in Hy as (k & Hk).
        destruct (nth_error_lt _ p0 k) as (c & Hc). { rewrite <- L. eapply nth_error_Some_lt; eauto. }
        destruct (Z_lt_le_dec c 0) as [Hc0|Hc0].
        -- rewrite (C1 _ _ Hc Hc0) in Hk. apply Some_inj in Hk. lia.
        -- destruct (C2 _ _ Hc Hc0) as (c' & E' & H'). rewrite E' in Hk. apply Some_inj in Hk. lia.
      * destruct j as [|j]; [lia|]. simpl in Hp, Hq. eapply (B i j); eauto. lia.
Qed.

(** A slice without cells resets the counter, so that a later slice's ids collide with those of the input mesh; the clashing face is then
    silently left out of the collection. *)
Theorem c101_fresh_ids_refuted : exists n planes r, 0 < n /\ number_planes n planes = Some r /\
  (exists p x, In p r /\ In x p /\ 0 <= x < n) /\
  collect_faces [(0, 100)] [[]; [(0, 200)]] = [(0, 100)].
Proof. exists 1, [[-1]; [0]], [[-1]; [0]]. split; [lia|]. split; [reflexivity|]. split; [|reflexivity]. exists [0], 0. simpl; auto with zarith. Qed.

Lemma insert_faces_spec (A : Type) fcs : forall (m : list (Z * A)), ssorted Z.compare (keys m) ->
  ssorted Z.compare (keys (insert_faces m fcs)) /\
  (NoDup (keys fcs) -> (forall k, In k (keys fcs) -> ~ In k (keys m)) ->
   forall k f, In (k, f) (insert_faces m fcs) <-> In (k, f) m \/ In (k, f) fcs).
Proof.
  induction fcs as [|[k0 f0] fcs IH]; intros m HS.
  - split; [exact HS|]. intros _ _ k f. simpl. tauto.
  - assert (HS' : ssorted Z.compare (keys (map_emplace Z.compare k0 f0 m))) by (apply map_emplace_sorted; auto using Zcompare_total).
    destruct (IH _ HS') as [A1 A2]. split; [exact A1|]. intros HN HD k f.
    change (insert_faces m ((k0, f0) :: fcs)) with (insert_faces (map_emplace Z.compare k0 f0 m) fcs).
    simpl in HN, HD. inversion HN as [|? ? N1 N2]; subst.
    assert (HE : forall k f, In (k, f) (map_emplace Z.compare k0 f0 m) <-> In (k, f) m \/ (k0, f0) = (k, f)).
    { intros k1 f1. assert (HK0 : map_find Z.compare k0 m = None) by (apply (map_find_None Zcompare_total); auto).
      rewrite <- !(map_find_Some Zcompare_total) by auto. rewrite (map_find_emplace Zcompare_total) by auto.
      destruct (map_find Z.compare k1 m) as [w|] eqn:EK.
      - split; auto. intros [E|E]; auto. injection E as -> ->. congruence.
      - destruct (Z.compare_spec k1 k0) as [->|H|H].
        + split; [intros E; apply Some_inj in E; subst; auto|intros [E|E]; [discriminate|injection E; congruence]].
        + split; [discriminate|]. intros [E|E]; [discriminate|]. injection E; lia.
        + split; [discriminate|]. intros [E|E]; [discriminate|]. injection E; lia. }
    rewrite A2; [rewrite HE; simpl; tauto|auto|].
    intros k1 H1 H2. apply in_map_iff in H2 as ([k2 f2] & E2 & H2). simpl in E2. subst k2. apply HE in H2 as [H2|E].
    + apply (HD k1); auto. apply (in_map fst) in H2. auto.
    + injection E as -> ->. contradiction.
Qed.

Lemma NoDup_app_parts (A : Type) (a b : list A) : NoDup (a ++ b) -> NoDup a /\ NoDup b /\ forall x, In x a -> In x b -> False.
Proof.
  induction a as [|x a IH]; simpl; intros H; [split; [constructor|split; auto]|].
  inversion H as [|? ? H1 H2]; subst. destruct (IH H2) as (A1 & A2 & A3). split; [|split; auto].
  - constructor; auto. intros HI. apply H1. apply in_or_app; auto.
  - intros y [<-|Hy] Hb; eauto. apply H1. apply in_or_app; auto.
Qed.

(** C101. With fresh ids (no id used twice) every face of the input mesh and of every slice is collected, under its id, and nothing else. *)
Theorem c101_collected : forall (A : Type) (planes : list (list (Z * A))) mesh, ssorted Z.compare (keys mesh) ->
  NoDup (concat (map (@keys Z A) planes)) -> (forall k, In k (concat (map (@keys Z A) planes)) -> ~ In k (keys mesh)) ->
  let r := collect_faces mesh planes in
  ssorted Z.compare (keys r) /\ forall k f, In (k, f) r <-> In (k, f) mesh \/ exists p, In p planes /\ In (k, f) p.
Proof.
  intros A planes. induction planes as [|p planes IH]; intros mesh HS HN HD r.
  - split; [exact HS|]. intros k f. subst r. simpl. split; auto. intros [H|(p & [] & _)]; auto.
  - subst r. simpl in HN, HD. change (collect_faces mesh (p :: planes)) with (collect_faces (insert_faces mesh p) planes).
    destruct (insert_faces_spec p mesh HS) as [A1 A2].
    destruct (NoDup_app_parts _ _ HN) as (NP & NPS & DD).
    assert (A3 := A2 NP (fun k H => HD k (in_or_app _ _ _ (or_introl H)))).
    destruct (IH (insert_faces mesh p) A1 NPS) as [B1 B2].
    { intros k Hk HI. apply in_map_iff in HI as ([k' f'] & E & HI). simpl in E. subst k'. apply A3 in HI as [HI|HI].
      - apply (HD k); [apply in_or_app; auto|]. apply (in_map fst) in HI; auto.
      - apply (DD k); auto. apply (in_map fst) in HI; auto. }
    split; [exact B1|]. intros k f. rewrite B2, A3. split.
    + intros [[H|H]|(q & H1 & H2)]; auto; right; [exists p|exists q]; simpl; auto.
    + intros [H|(q & [<-|H1] & H2)]; eauto.
Qed.

(** three input faces and two slices with two cells and one cell *)
Example c101_witness : number_planes 3 [[0; 1; -1; 1]; [0; 0]] = Some [[3; 4; -1; 4]; [5; 5]].
Proof. reflexivity. Qed.

(** * C102 *)
(** the square of the slice orthogonal to axis idx that is the side of the cell a *)
Definition square_of (idx : nat) (a : coord) : coord := [nth ((idx + 1) mod 3) a 0; nth ((idx + 2) mod 3) a 0].
(** a loop of vertices in the plane x_idx = cidx *)
Definition loop_in_plane (V : Z -> vertex) (idx : nat) (cidx : Z) (l : list Z) : Prop :=
  forall j, In j l -> v_wf 3 (V j) /\ normalised (V j) /\ nth_error (pos (V j)) idx = Some (Z2Qc cidx).
Definition cell_contains (V : Z -> vertex) (l : list Z) (x : coord) : Prop := forall j, In j l -> in_closed_cell x (pos (V j)).

Fixpoint put (l : coord) (i : nat) (z : Z) : coord := match l, i with [], _ => [] | _ :: t, O => z :: t | a :: t, S k => a :: put t k z end.

Lemma closed_cell_nth x p i c q : in_closed_cell x p -> nth_error x i = Some c -> nth_error p i = Some q -> (Z2Qc c <= q /\ q <= Z2Qc c + 1)%Qc.
Proof. intros H. unfold in_closed_cell in H. rewrite Forall2_nth in H. destruct H as [_ H]. eauto. Qed.

Lemma plane_cell c z : (Z2Qc c <= Z2Qc z /\ Z2Qc z <= Z2Qc c + 1)%Qc <-> c = z \/ c = z - 1.
Proof.
  assert (H := cell_axis z 0%Qc c). rewrite Qcplus_0_r in H. rewrite H; [|split; [apply Qcle_refl|reflexivity]].
  intuition.
Qed.

Lemma closed_cell_put x p i c : in_closed_cell x p -> nth_error p i = Some (Z2Qc c) -> forall c', c' = c \/ c' = c - 1 -> in_closed_cell (put x i c') p.
Proof.
  unfold in_closed_cell. intros H. revert i. induction H as [|a b x p Hab H IH]; intros [|i] E c' Hc; simpl in *; try discriminate.
  - apply Some_inj in E. subst b. constructor; auto. apply plane_cell; auto.
  - constructor; auto.
Qed.

Lemma len3_cell x v : v_wf 3 v -> in_closed_cell x (pos v) -> exists a b c, x = [a; b; c].
Proof.
  intros W H. unfold in_closed_cell in H. rewrite Forall2_nth in H. destruct H as [H _]. rewrite (pos_length 3 v W) in H.
  destruct x as [|a [|b [|c [|]]]]; try discriminate. eauto.
Qed.

Lemma contains_idx V idx cidx l x : (idx < 3)%nat -> l <> [] -> loop_in_plane V idx cidx l -> cell_contains V l x ->
  (exists a b c, x = [a; b; c]) /\ (nth idx x 0 = cidx \/ nth idx x 0 = cidx - 1).
Proof.
  intros Hi HN HP HC. destruct l as [|j l]; [congruence|]. destruct (HP j (or_introl eq_refl)) as (W & N & E).
  assert (C := HC j (or_introl eq_refl)). destruct (len3_cell W C) as (a & b & c & ->). split; eauto.
  assert (HN' : nth_error [a; b; c] idx = Some (nth idx [a; b; c] 0)) by (destruct idx as [|[|[|]]]; [| | |lia]; reflexivity).
  apply plane_cell. eapply closed_cell_nth; eauto.
Qed.

Lemma cell_by_square idx x y : (idx < 3)%nat -> (exists a b c, x = [a; b; c]) -> (exists a b c, y = [a; b; c]) ->
  nth idx x 0 = nth idx y 0 -> square_of idx x = square_of idx y -> x = y.
Proof.
  intros Hi (a & b & c & ->) (d & e & f & ->). unfold square_of. destruct idx as [|[|[|]]]; [| | |lia]; simpl; intros E1 E2; injection E2; congruence.
Qed.

(** the two cells on both sides of the plane *)
Lemma two_sides V idx cidx l a b : (idx < 3)%nat -> l <> [] -> loop_in_plane V idx cidx l ->
  (forall x, In x [a; b] <-> cell_contains V l x) -> square_of idx a = square_of idx b.
Proof.
  intros Hi HN HP HC. assert (CA : cell_contains V l a) by (apply HC; simpl; auto).
  destruct (contains_idx Hi HN HP CA) as [(u & v & w & ->) _].
  assert (CP : forall c', c' = cidx \/ c' = cidx - 1 -> In (put [u; v; w] idx c') [[u; v; w]; b]).
  { intros c' Hc'. apply HC. intros j Hj. destruct (HP j Hj) as (_ & _ & E). eapply closed_cell_put; eauto. }
  assert (SP : forall c', square_of idx (put [u; v; w] idx c') = square_of idx [u; v; w]).
  { intros c'. unfold square_of. destruct idx as [|[|[|]]]; [| | |lia]; reflexivity. }
  assert (NP : forall c', nth idx (put [u; v; w] idx c') 0 = c').
  { intros c'. destruct idx as [|[|[|]]]; [| | |lia]; reflexivity. }
  destruct (CP cidx (or_introl eq_refl)) as [E1|[E1|[]]]; [|rewrite E1, SP; auto].
  destruct (CP (cidx - 1) (or_intror eq_refl)) as [E2|[E2|[]]]; [|rewrite E2, SP; auto].
  exfalso. assert (X := NP cidx). assert (Y := NP (cidx - 1)). rewrite <- E1 in X. rewrite <- E2 in Y. lia.
Qed.

Lemma pc_contains V idx cidx l : l <> [] -> loop_in_plane V idx cidx l -> forall x, In x (gen_possible_cells V l) <-> cell_contains V l x.
Proof. intros HN HP x. apply (gen_possible_cells_In V 3 l x); auto. intros i Hi. destruct (HP i Hi) as (W & N & _). auto. Qed.

(** two cells, or one, or none; all of the same square *)
Lemma pc_square V idx cidx l a t : (idx < 3)%nat -> l <> [] -> loop_in_plane V idx cidx l -> gen_possible_cells V l = a :: t -> (length t <= 1)%nat ->
  forall x, cell_contains V l x -> square_of idx x = square_of idx a.
Proof.
  intros Hi HN HP E HL x HX. assert (HC := pc_contains HN HP). rewrite E in HC.
  destruct t as [|b [|]]; [| |simpl in HL; lia].
  - apply HC in HX as [<-|[]]; auto.
  - assert (S := two_sides Hi HN HP HC). apply HC in HX as [<-|[<-|[]]]; auto.
Qed.

Lemma loop_ok_spec prim vol l : loop_ok prim vol l = true <-> (0 <= vol)%Qc /\ (3 <= length l)%nat /\ ~ In (smallest_ordered_edge l) prim.
Proof.
  unfold loop_ok. rewrite !andb_true_iff, negb_true_iff, Nat.ltb_lt. rewrite <- edge_mem_In.
  rewrite qleb_le. destruct (edge_mem _ _); intuition (congruence || lia).
Qed.

Definition kept_spec (V : Z -> vertex) (prim : list edge) (idx : nat) (sl : slice) (vol : Qc) (l : list Z) : Prop :=
  (0 <= vol)%Qc /\ (3 <= length l)%nat /\ ~ In (smallest_ordered_edge l) prim /\
  (is_boundary_cell (sl_bes sl) l = true -> exists x, cell_contains V l x /\ sl_mask sl (square_of idx x) = false).

Lemma keep_loop_spec V prim idx cidx sl vol l b : (idx < 3)%nat -> loop_in_plane V idx cidx l -> keep_loop V prim idx sl vol l = Some b ->
  (b = true <-> kept_spec V prim idx sl vol l).
Proof.
  intros Hi HP. unfold keep_loop, kept_spec. destruct (is_boundary_cell (sl_bes sl) l) eqn:EB.
  2:{ intros E. apply Some_inj in E. subst b. rewrite loop_ok_spec. intuition discriminate. }
  destruct l as [|j0 l0] eqn:EL.
  { simpl. intros E. apply Some_inj in E. subst b. split; [discriminate|]. intros (_ & H & _). lia. }
  rewrite <- EL in *. assert (HN : l <> []) by congruence. clear EL j0 l0. assert (HC := pc_contains HN HP).
  destruct (gen_possible_cells V l) as [|a t] eqn:EP.
  { intros E. apply Some_inj in E. subst b. split; [discriminate|]. intros (_ & _ & _ & H). destruct (H eq_refl) as (x & Hx & _).
    apply HC in Hx. destruct Hx. }
  destruct (1 <? length t)%nat eqn:EL; [discriminate|]. apply Nat.ltb_ge in EL.
  change [nth ((idx + 1) mod 3) a 0; nth ((idx + 2) mod 3) a 0] with (square_of idx a).
  destruct (in_shape (sl_shape sl) (square_of idx a)); [|discriminate].
  assert (SQ := @pc_square V idx cidx l a t Hi HN HP EP EL).
  destruct (sl_mask sl (square_of idx a)) eqn:EM; intros E; apply Some_inj in E; subst b.
  - split; [discriminate|]. intros (_ & _ & _ & H). destruct (H eq_refl) as (x & Hx & Hm). rewrite (SQ x Hx) in Hm. congruence.
  - rewrite loop_ok_spec. split; [|intuition]. intros (H1 & H2 & H3). repeat (split; auto). intros _. exists a. split; auto. apply HC. simpl; auto.
Qed.

Lemma keep_loops_spec V prim idx cidx sl vol : (idx < 3)%nat -> forall vs acc r, (forall l, In l vs -> loop_in_plane V idx cidx l) ->
  keep_loops V prim idx sl vol vs acc = Some r -> forall l, In l r <-> In l acc \/ (In l vs /\ kept_spec V prim idx sl vol l).
Proof.
  intros Hi. induction vs as [|v vs IH]; intros acc r HP HR l; simpl in HR.
  - apply Some_inj in HR. subst. simpl. tauto.
  - destruct (keep_loop V prim idx sl vol v) as [b|] eqn:EK; [|discriminate].
    assert (HK := @keep_loop_spec V prim idx cidx sl vol v b Hi (HP v (or_introl eq_refl)) EK).
    rewrite (IH _ _ (fun l H => HP l (or_intror H)) HR). simpl. destruct b.
    + rewrite (set_insert_In zlex_total). split.
      * intros [[->|H]|[H1 H2]]; auto. right. split; auto. apply HK; auto.
      * intros [H|[[<-|H1] H2]]; auto.
    + split.
      * intros [H|[H1 H2]]; auto.
      * intros [H|[[<-|H1] H2]]; auto. apply HK in H2. discriminate.
Qed.

(** C102. The faces made from a slice hold exactly the loops that have at least three vertices and non-negative area, do not carry the key
    of an axis-aligned input face, and - if they run along boundary edges only - lie around a cut square of the slice; faces without a loop are
    not made. *)
Theorem c102_loops : forall V prim idx cidx sl r, (idx < 3)%nat ->
  (forall i vs l, In (i, vs) (sl_faces sl) -> In l vs -> loop_in_plane V idx cidx l) ->
  faces_axis V prim idx sl (sl_faces sl) = Some r ->
  (forall i ls, In (i, ls) r -> ls <> []) /\
  forall i l, (exists ls, In (i, ls) r /\ In l ls) <->
    exists vs, In (i, vs) (sl_faces sl) /\ In l vs /\ kept_spec V prim idx sl (sl_vols sl i) l.
Proof.
  intros V prim idx cidx sl r Hi. generalize (sl_faces sl) as fs. intros fs; revert r.
  induction fs as [|[i0 vs0] fs IH]; intros r HP HR; simpl in HR.
  - apply Some_inj in HR. subst r. split; [intros ? ? []|]. intros i l. split; [intros (? & [] & _)|intros (? & [] & _)].
  - destruct (keep_loops V prim idx sl (sl_vols sl i0) vs0 []) as [ls0|] eqn:EK; [|discriminate].
    assert (HK := @keep_loops_spec V prim idx cidx sl (sl_vols sl i0) Hi vs0 [] ls0 (fun l H => HP i0 vs0 l (or_introl eq_refl) H) EK).
    destruct (faces_axis V prim idx sl fs) as [r'|] eqn:ER; [|destruct ls0; discriminate].
    destruct (IH r' (fun i vs l H => HP i vs l (or_intror H)) eq_refl) as [I1 I2].
    assert (EQ : r = match ls0 with [] => r' | _ => (i0, ls0) :: r' end) by (destruct ls0; apply Some_inj in HR; auto).
    subst r. clear HR. split.
    + intros i ls H. destruct ls0; [eauto|]. destruct H as [H|H]; [|eauto]. injection H as <- <-. discriminate.
    + intros i l. split.
      * intros (ls & H & Hl). assert (H' : In (i, ls) ((i0, ls0) :: r')) by (destruct ls0; simpl in *; auto).
        destruct H' as [E|H'].
        -- injection E as <- <-. apply HK in Hl as [[]|[H1 H2]]. exists vs0. simpl; auto.
        -- destruct (proj1 (I2 i l)) as (vs & A & B); eauto. exists vs. simpl; auto.
      * intros (vs & [E|H] & Hl & HS).
        -- injection E as <- <-. assert (Hin : In l ls0) by (apply HK; auto). exists ls0. split; auto. destruct ls0; [destruct Hin|simpl; auto].
        -- destruct (proj2 (I2 i l)) as (ls & A & B); [eauto|]. exists ls. split; auto. destruct ls0; simpl; auto.
Qed.

(** C102. It is defined if every loop of boundary edges lies in a single square of the slice (and not only on a grid line). *)
Theorem c102_defined_partial : forall V prim idx cidx sl, (idx < 3)%nat ->
  (forall i vs l, In (i, vs) (sl_faces sl) -> In l vs -> loop_in_plane V idx cidx l) ->
  (forall i vs l x y, In (i, vs) (sl_faces sl) -> In l vs -> l <> [] -> is_boundary_cell (sl_bes sl) l = true -> cell_contains V l x -> cell_contains V l y ->
     square_of idx x = square_of idx y /\ in_shape (sl_shape sl) (square_of idx x) = true) ->
  faces_axis V prim idx sl (sl_faces sl) <> None.
Proof.
  intros V prim idx cidx sl Hi. generalize (sl_faces sl) as fs. induction fs as [|[i0 vs0] fs IH]; intros HP HS; simpl; [discriminate|].
  assert (HK : keep_loops V prim idx sl (sl_vols sl i0) vs0 [] <> None).
  { assert (HP0 := fun l => HP i0 vs0 l (or_introl eq_refl)). assert (HS0 := fun l x y => HS i0 vs0 l x y (or_introl eq_refl)). clear HP HS IH fs.
    generalize (@nil (list Z)). induction vs0 as [|v vs IHv]; intros acc; simpl; [discriminate|].
    assert (HKL : keep_loop V prim idx sl (sl_vols sl i0) v <> None).
    { unfold keep_loop. destruct (is_boundary_cell (sl_bes sl) v) eqn:EB; [|discriminate].
      destruct v as [|j0 l0] eqn:EV; [discriminate|]. rewrite <- EV in *. assert (HN : v <> []) by congruence.
      assert (PV := HP0 v (or_introl eq_refl)). assert (HC := pc_contains HN PV).
      assert (HND : NoDup (gen_possible_cells V v)) by (apply (ssorted_NoDup zlex_total); apply gen_possible_cells_sorted).
      destruct (gen_possible_cells V v) as [|a t] eqn:EP; [discriminate|].
      assert (CA : cell_contains V v a) by (apply HC; simpl; auto).
      change [nth ((idx + 1) mod 3) a 0; nth ((idx + 2) mod 3) a 0] with (square_of idx a).
      rewrite (proj2 (HS0 v a a (or_introl eq_refl) HN EB CA CA)).
      destruct (1 <? length t)%nat eqn:EL; [|destruct (sl_mask sl _); discriminate].
      exfalso. apply Nat.ltb_lt in EL.
      assert (ND' : NoDup (map (fun x => nth idx x 0) (a :: t))).
      { assert (INJ : forall x y, In x (a :: t) -> In y (a :: t) -> nth idx x 0 = nth idx y 0 -> x = y).
        { intros x y Hx Hy E. apply HC in Hx, Hy. apply (cell_by_square Hi); auto.
          - apply (contains_idx Hi HN PV Hx).
          - apply (contains_idx Hi HN PV Hy).
          - apply (HS0 v x y (or_introl eq_refl) HN EB Hx Hy). }
        clear -HND INJ. induction HND as [|x l H1 H2 IH]; simpl; constructor.
        - intros HI. apply in_map_iff in HI as (y & E & Hy). apply H1. rewrite <- (INJ y x); simpl; auto.
        - apply IH. intros; apply INJ; simpl; auto. }
      assert (LEN : (length (map (fun x => nth idx x 0%Z) (a :: t)) <= length [cidx; (cidx - 1)%Z])%nat).
      { apply NoDup_incl_length; auto. intros z Hz. apply in_map_iff in Hz as (x & <- & Hx). apply HC in Hx.
        destruct (contains_idx Hi HN PV Hx) as [_ [E|E]]; simpl; auto. }
      rewrite map_length in LEN. simpl in LEN. unfold coord in *. lia. }
    destruct (keep_loop V prim idx sl (sl_vols sl i0) v) as [b|]; [|congruence].
    apply IHv; [intros; apply HP0; simpl; auto|intros; eapply HS0; simpl; eauto]. }
  destruct (keep_loops V prim idx sl (sl_vols sl i0) vs0 []) as [ls0|]; [|congruence].
  destruct (faces_axis V prim idx sl fs) eqn:ER; [destruct ls0; discriminate|].
  exfalso. apply IH; auto; intros; [eapply HP|eapply HS]; simpl; eauto.
Qed.

(** ** Input faces *)
(** C102. Every cut input face with at least three vertices is kept, under its own number. *)
Theorem c102_input_faces : forall cfs i f, In (i, f) (faces_vertex cfs) <-> 0 <= i /\ nth_error cfs (Z.to_nat i) = Some f /\ (3 <= length (mcf_loop f))%nat.
Proof.
  intros cfs i f. unfold faces_vertex. rewrite filter_In. cbn [snd]. rewrite Nat.ltb_lt.
  assert (E : In (i, f) (combine (zrange 0 (length cfs)) cfs) <-> 0 <= i /\ nth_error cfs (Z.to_nat i) = Some f).
  { assert (G : forall l a i, In (i, f) (combine (zrange a (length l)) l) <-> a <= i /\ nth_error l (Z.to_nat (i - a)) = Some f).
    { induction l as [|x l IH]; intros a j; [cbn; split; [intros []|intros [_ H]; destruct (Z.to_nat (j - a)); discriminate]|].
      assert (ZR : zrange a (length (x :: l)) = a :: zrange (a + 1) (length l)) by (unfold zrange; cbn [length seq map]; rewrite <- seq_shift, map_map; f_equal; [lia|apply map_ext; intros; lia]). rewrite ZR. change (combine (a :: zrange (a + 1) (length l)) (x :: l)) with ((a, x) :: combine (zrange (a + 1) (length l)) l).
      simpl In. rewrite IH. split.
      - intros [H|[H1 H2]]; [injection H as -> ->; split; [lia|]; rewrite Z.sub_diag; reflexivity|]. split; [lia|]. replace (Z.to_nat (j - a)) with (S (Z.to_nat (j - (a + 1)))) by lia. auto.
      - intros [H1 H2]. destruct (Z.eq_dec j a) as [ -> |N]; [rewrite Z.sub_diag in H2; cbn in H2; left; congruence|]. right. split; [lia|]. replace (Z.to_nat (j - a)) with (S (Z.to_nat (j - (a + 1)))) in H2 by lia. auto. }
    rewrite G, Z.sub_0_r. reflexivity. }
  rewrite E. split; intros (H1 & H2); [destruct H1; auto|destruct H2; auto].
Qed.

(** ** Axis-aligned input faces in the slice *)
Lemma axial_primal_In active N cfs i e : In e (axial_primal active N cfs i) <->
  exists f z, In f cfs /\ active (mcf_parent f) = true /\ nth_error (mcf_mask f) i = Some (Some z) /\
    e = (if qltb 0%Qc (N (mcf_parent f) i) then smallest_ordered_edge (mcf_loop f) else smallest_ordered_edge_reverse (mcf_loop f)).
Proof.
  unfold axial_primal. rewrite (set_of_list_In edge_cmp_total), in_flat_map. split.
  - intros (f & Hf & H). destruct (active (mcf_parent f)) eqn:EA; [|destruct H].
    destruct (nth_error (mcf_mask f) i) as [[z|]|] eqn:EM; try destruct H. subst e. exists f, z. auto. contradiction.
  - intros (f & z & Hf & EA & EM & ->). exists f. split; auto. rewrite EA, EM. simpl; auto.
Qed.

(** C102. A loop that is a rotation of an active input face lying in the slice and facing the positive direction is not made a face a second
    time. *)
Theorem c102_duplicate_dropped : forall V active N cfs idx cidx sl r, (idx < 3)%nat ->
  (forall i vs l, In (i, vs) (sl_faces sl) -> In l vs -> loop_in_plane V idx cidx l) ->
  faces_axis V (axial_primal active N cfs idx) idx sl (sl_faces sl) = Some r ->
  forall i ls l f z k, In (i, ls) r -> In l ls -> In f cfs -> active (mcf_parent f) = true ->
    nth_error (mcf_mask f) idx = Some (Some z) -> (0 < N (mcf_parent f) idx)%Qc -> (k <= length (mcf_loop f))%nat ->
    l <> rotate k (mcf_loop f).
Proof.
  intros V active N cfs idx cidx sl r Hi HP HR i ls l f z k Hil Hl Hf HA HM HN Hk E.
  destruct (@c102_loops V _ idx cidx sl r Hi HP HR) as [_ H].
  destruct (proj1 (H i l)) as (vs & _ & _ & _ & H3 & H4 & _); [eauto|].
  apply H4. apply axial_primal_In. exists f, z. repeat (split; auto).
  rewrite (proj2 (qltb_lt _ _) HN). subst l. rewrite rotate_length in H3. apply smallest_rotate; auto. lia.
Qed.

Lemma loop_edge_of_vertex l x : (2 <= length l)%nat -> In x l -> exists y, loop_edge l (x, y).
Proof.
  intros HL Hx. apply In_nth_error in Hx as (i & Hx). assert (Hi := nth_error_Some_lt _ _ _ _ Hx).
  exists (nth ((i + 1) mod length l) l 0). exists i. split; auto. f_equal. symmetry. apply nth_error_nth; auto.
Qed.
Lemma loop_edge_vertices l a b : loop_edge l (a, b) -> In a l /\ In b l.
Proof.
  intros (i & Hi & E). injection E as -> ->. split; apply nth_In; auto. apply Nat.mod_upper_bound. lia.
Qed.

(** the key stored for a face with negative normal runs towards the smallest vertex of the face, the key of a loop away from it *)
Lemma reverse_key_no_loop v l : (2 <= length v)%nat -> NoDup v -> (2 <= length l)%nat -> smallest_ordered_edge l <> smallest_ordered_edge_reverse v.
Proof.
  intros Lv ND Ll E. destruct (smallest_spec l Ll) as [A1 A2]. assert (B := smallest_reverse_spec v Lv). cbv zeta in B.
  rewrite <- E in B. destruct B as [B1 B2]. destruct (smallest_ordered_edge l) as [x y]. simpl in *.
  destruct (loop_edge_vertices A1) as [Ix Iy]. destruct (loop_edge_vertices B1) as [Jx Jy].
  destruct (@loop_edge_of_vertex l y Ll Iy) as (w & Hw). specialize (A2 _ Hw). unfold edge_le in A2; simpl in A2.
  assert (HX : exists u, loop_edge v (u, x)).
  { assert (HR : In x (rev v)) by (apply in_rev in Jx; auto). assert (LR : (2 <= length (rev v))%nat) by (rewrite rev_length; auto).
    destruct (@loop_edge_of_vertex (rev v) x LR HR) as (u & Hu). exists u. apply loop_edge_rev; auto. }
  destruct HX as (u & Hu). specialize (B2 _ Hu). unfold edge_le in B2; simpl in B2.
  assert (x = y) by lia. subst y. destruct B1 as (i & Hi & EE). injection EE as E1 E2.
  assert (HM : ((i + 1) mod length v < length v)%nat) by (apply Nat.mod_upper_bound; lia).
  assert (EI : i = ((i + 1) mod length v)%nat) by (apply (proj1 (NoDup_nth v 0) ND); auto; congruence).
  destruct (Nat.eq_dec (i + 1) (length v)) as [F|F].
  - rewrite F, Nat.mod_same in EI by lia. lia.
  - rewrite Nat.mod_small in EI by lia. lia.
Qed.

(** C102, the other direction: REFUTED.  Input faces facing the negative direction never make a difference, whatever they are; so a slice
    loop on the very place of such a face is made a second face. *)
Theorem c102_negative_ignored_refuted : forall active N cfs i l, (2 <= length l)%nat ->
  (forall f, In f cfs -> (2 <= length (mcf_loop f))%nat /\ NoDup (mcf_loop f)) ->
  (In (smallest_ordered_edge l) (axial_primal active N cfs i) <->
   In (smallest_ordered_edge l) (axial_primal active N (filter (fun f => qltb 0%Qc (N (mcf_parent f) i)) cfs) i)).
Proof.
  intros active N cfs i l Ll HC. rewrite !axial_primal_In. split.
  - intros (f & z & Hf & HA & HM & E). destruct (qltb 0%Qc (N (mcf_parent f) i)) eqn:EN.
    + exists f, z. rewrite EN. repeat (split; auto). apply filter_In; auto.
    + exfalso. destruct (HC f Hf). eapply (@reverse_key_no_loop (mcf_loop f) l); eauto.
  - intros (f & z & Hf & HA & HM & E). apply filter_In in Hf as [Hf _]. exists f, z. auto.
Qed.

(** the slice z = 1 of a 2x2x2 vertex grid, with an input face on its only square facing down: the square is made a face again *)
Definition dup_V : Z -> vertex := fun i => vertex_of_coord (unravel [2; 2; 2] i).
Definition dup_slice : slice := mkSlice [(7, [[1; 5; 7; 3]])] (fun _ => 1%Qc) [] [1; 1] (fun _ => false).
Example c102_witness :
  (forall i vs l, In (i, vs) (sl_faces dup_slice) -> In l vs -> loop_in_plane dup_V 2 1 l) /\
  (* facing up: dropped *)
  faces_axis dup_V (axial_primal (fun _ => true) (fun _ _ => 1%Qc) [mkMCF [5; 7; 3; 1] 0 [None; None; Some 1]] 2) 2 dup_slice (sl_faces dup_slice) = Some [] /\
  (* the same face facing down (reversed loop): kept *)
  faces_axis dup_V (axial_primal (fun _ => true) (fun _ _ => (- (1))%Qc) [mkMCF [1; 3; 7; 5] 0 [None; None; Some 1]] 2) 2 dup_slice (sl_faces dup_slice) = Some [(7, [[1; 5; 7; 3]])].
Proof.
  split; [|split; vm_compute; reflexivity].
  intros i vs l [E|[]] Hl. injection E as <- <-. destruct Hl as [<-|[]]. intros j Hj.
  repeat (destruct Hj as [<-|Hj]); [..|destruct Hj]; (split; [repeat split|]); (split; [unfold normalised; repeat constructor; vm_compute; congruence|]); vm_compute; reflexivity.
Qed.

(** * C103 *)
(** the generator's data is well formed: face ids in increasing order (a map), and every id used elsewhere is a face *)
Definition gen3_wf (g : gen3) : Prop :=
  ssorted Z.compare (keys (g_faces g)) /\ (forall k, In k (keys (g_mesh g)) -> In k (keys (g_faces g))) /\ NoDup (keys (g_mesh g)) /\
  (forall s k, In s (g_axial g) -> In k s -> In k (keys (g_faces g))) /\
  (forall c, In c (g_cells g) -> ssorted Z.compare (keys (gc_faces c)) /\ forall k, In k (keys (gc_faces c)) -> In k (keys (g_faces g))).
(** the face with id [id] has place k in the map *)
Definition place (g : gen3) (id : Z) (k : Z) : Prop := exists n, k = Z.of_nat n /\ nth_error (keys (g_faces g)) n = Some id.

Lemma place_inj g id id' k : place g id k -> place g id' k -> id = id'.
Proof. intros (n & -> & H) (n' & E & H'). apply Nat2Z.inj in E. subst. congruence. Qed.
Lemma place_fun g id k k' : ssorted Z.compare (keys (g_faces g)) -> place g id k -> place g id k' -> k = k'.
Proof.
  intros S (n & -> & H) (n' & -> & H'). f_equal. apply (ssorted_NoDup Zcompare_total) in S. rewrite NoDup_nth_error in S. apply S.
  - eapply nth_error_Some_lt; eauto.
  - congruence.
Qed.
Lemma place_ex g id : In id (keys (g_faces g)) -> exists k, place g id k.
Proof. intros H. apply In_nth_error in H as (n & H). exists (Z.of_nat n), n. auto. Qed.

Lemma reindex_fold (A : Type) (l : list (Z * A)) : forall a m, ssorted Z.compare (keys m) -> NoDup (keys l) ->
  let r := fold_left (fun m '(i, (idx, _)) => map_set Z.compare idx i m) (combine (zrange a (length l)) l) m in
  ssorted Z.compare (keys r) /\
  forall id, (forall n, nth_error (keys l) n = Some id -> map_find Z.compare id r = Some (a + Z.of_nat n)) /\
             (~ In id (keys l) -> map_find Z.compare id r = map_find Z.compare id m).
Proof.
  induction l as [|[i0 f0] l IH]; intros a m HS HN.
  - simpl. split; auto. intros id. split; auto. intros [|]; discriminate.
  - simpl length. replace (zrange a (S (length l))) with (a :: zrange (a + 1) (length l)).
    2:{ unfold zrange. simpl. f_equal; [lia|]. rewrite <- seq_shift, map_map. apply map_ext. intros; lia. }
    cbn [combine fold_left]. simpl in HN. inversion HN as [|? ? N1 N2]; subst.
    destruct (IH (a + 1) (map_set Z.compare i0 a m) (map_set_sorted Zcompare_total _ _ _ HS) N2) as [A1 A2].
    split; [exact A1|]. intros id. split.
    + intros [|n] H; simpl in H.
      * apply Some_inj in H. subst id. rewrite (proj2 (A2 i0) N1). rewrite (map_find_set Zcompare_total), Z.compare_refl by auto. f_equal. lia.
      * rewrite (proj1 (A2 id) n H). f_equal. lia.
    + intros H. simpl in H. rewrite (proj2 (A2 id)) by tauto. rewrite (map_find_set Zcompare_total) by auto.
      destruct (Z.compare_spec id i0); auto. subst. tauto.
Qed.

Lemma re_at_place g id : ssorted Z.compare (keys (g_faces g)) ->
  (forall k, re_at (face_reindexer (g_faces g)) id = Some k <-> place g id k) /\ (re_at (face_reindexer (g_faces g)) id = None <-> ~ In id (keys (g_faces g))).
Proof.
  intros S. assert (ND := ssorted_NoDup Zcompare_total S).
  destruct (@reindex_fold cut_face (g_faces g) 0 [] ltac:(constructor) ND) as [A1 A2]. destruct (A2 id) as [B1 B2].
  unfold re_at, face_reindexer.
  assert (P1 : forall k, place g id k -> map_find Z.compare id (fold_left (fun m '(i, (idx, _)) => map_set Z.compare idx i m) (combine (zrange 0 (length (g_faces g))) (g_faces g)) []) = Some k).
  { intros k (n & -> & H). rewrite (B1 n H). f_equal. }
  split.
  - intros k. split; auto. intros H. destruct (in_dec Z.eq_dec id (keys (g_faces g))) as [HI|HI].
    + destruct (place_ex g id HI) as (k' & HK). rewrite (P1 _ HK) in H. apply Some_inj in H. subst; auto.
    + rewrite (B2 HI) in H. discriminate.
  - split.
    + intros H HI. destruct (place_ex g id HI) as (k' & HK). rewrite (P1 _ HK) in H. discriminate.
    + intros HI. rewrite (B2 HI). auto.
Qed.

Lemma place_faces_spec g (S : ssorted Z.compare (keys (g_faces g))) fs : forall acc, length acc = length (g_faces g) ->
  (forall p, In p fs -> In p (g_faces g)) ->
  exists r, place_faces (face_reindexer (g_faces g)) fs acc = Some r /\ length r = length acc /\
   forall n p, nth_error (g_faces g) n = Some p -> nth_error r n = if existsb (fun q => fst q =? fst p) fs then Some (Some (snd p)) else nth_error acc n.
Proof.
  assert (ND := ssorted_NoDup Zcompare_total S).
  assert (FUN : forall p q, In p (g_faces g) -> In q (g_faces g) -> fst p = fst q -> p = q).
  { intros [k f] [k' f'] H H' E. simpl in E. subst k'. f_equal. apply (map_find_Some Zcompare_total) in H, H'; auto. congruence. }
  induction fs as [|[i f] fs IH]; intros acc HL HI; simpl.
  - exists acc. auto.
  - assert (HIF := HI (i, f) (or_introl eq_refl)).
    assert (HK : In i (keys (g_faces g))) by (apply (in_map fst) in HIF; auto).
    destruct (place_ex g i HK) as (k & Hk). rewrite (proj2 (proj1 (re_at_place g i S) k) Hk).
    destruct Hk as (n0 & -> & Hn0). rewrite Nat2Z.id.
    assert (Ln0 : (n0 < length acc)%nat). { apply nth_error_Some_lt in Hn0. unfold keys in Hn0. rewrite map_length in Hn0. lia. }
    destruct (IH (zput acc n0 (Some f))) as (r & E & L & H).
    + rewrite <- HL. clear. revert n0. induction acc as [|a acc IHa]; intros [|n]; simpl; auto.
    + intros; apply HI; simpl; auto.
    + exists r. split; auto. split.
      * rewrite L. clear. revert n0. induction acc as [|a acc IHa]; intros [|n]; simpl; auto.
      * intros n p Hp. rewrite (H n p Hp). assert (HPI := nth_error_In _ _ Hp).
        assert (Hkn : nth_error (keys (g_faces g)) n = Some (fst p)) by (unfold keys; rewrite nth_error_map, Hp; auto).
        destruct (Z.eqb_spec i (fst p)) as [E1|E1]; simpl.
        -- assert (p = (i, f)) by (apply FUN; auto). subst p. destruct (existsb _ fs); auto.
           rewrite nth_error_zput by auto. assert (n = n0).
           { rewrite NoDup_nth_error in ND. apply ND; [eapply nth_error_Some_lt; eauto|]. simpl in Hkn. congruence. }
           subst. rewrite Nat.eqb_refl. auto.
        -- destruct (existsb _ fs); auto. rewrite nth_error_zput by auto. destruct (Nat.eqb_spec n n0); auto. subst n0.
           rewrite Hkn in Hn0. apply Some_inj in Hn0. congruence.
Qed.

(** C103. The faces of the mesh are the generator's faces in the order of their ids; nothing is lost or left default. *)
Theorem c103_faces : forall g, gen3_wf g -> out_faces g = Some (map (fun p => Some (snd p)) (g_faces g)).
Proof.
  intros g (S & _). unfold out_faces.
  destruct (@place_faces_spec g S (g_faces g) (repeat None (length (g_faces g)))) as (r & E & L & H); auto.
  { apply repeat_length. }
  rewrite E. f_equal. rewrite repeat_length in L. apply nth_error_ext. intros n.
  destruct (nth_error (g_faces g) n) as [p|] eqn:EP.
  - rewrite (H n p EP), nth_error_map, EP. rewrite (proj2 (existsb_exists _ _)); auto.
    exists p. split; [eapply nth_error_In; eauto|apply Z.eqb_refl].
  - rewrite nth_error_map, EP. simpl. apply nth_error_None. apply nth_error_None in EP. lia.
Qed.

(** C103. A set of face ids is renumbered to the places of its faces. *)
Lemma redx_spec g s : ssorted Z.compare (keys (g_faces g)) -> (forall k, In k s -> In k (keys (g_faces g))) ->
  exists r, redx (face_reindexer (g_faces g)) s = Some r /\ ssorted Z.compare r /\ forall k, In k r <-> exists id, In id s /\ place g id k.
Proof.
  intros S H. unfold redx.
  assert (E : exists l, sequence (map (re_at (face_reindexer (g_faces g))) s) = Some l /\ forall k, In k l <-> exists id, In id s /\ place g id k).
  { induction s as [|i s IH]; simpl.
    - exists []. split; auto. intros k. split; [intros []|intros (? & [] & _)].
    - destruct IH as (l & E & HL); [intros; apply H; simpl; auto|].
      destruct (place_ex g i (H i (or_introl eq_refl))) as (k0 & Hk0). rewrite (proj2 (proj1 (re_at_place g i S) k0) Hk0), E.
      exists (k0 :: l). split; auto. intros k. simpl. rewrite HL. split.
      + intros [<-|(id & A & B)]; [exists i|exists id]; auto.
      + intros (id & [<-|A] & B); [left; eapply place_fun; eauto|right; eauto]. }
  destruct E as (l & E & HL). rewrite E. simpl. eexists. split; [reflexivity|]. split; [apply set_of_list_sorted, Zcompare_total|].
  intros k. rewrite (set_of_list_In Zcompare_total). auto.
Qed.

Theorem c103_axial : forall g, gen3_wf g -> exists r, out_axial g = Some r /\
  Forall2 (fun s s' => ssorted Z.compare s' /\ forall k, In k s' <-> exists id, In id s /\ place g id k) (g_axial g) r.
Proof.
  intros g (S & _ & _ & HA & _). unfold out_axial. induction (g_axial g) as [|s l IH]; simpl.
  - exists []. auto.
  - destruct IH as (r & E & F); [intros; eapply HA; simpl; eauto|].
    destruct (@redx_spec g s S) as (s' & E' & H'); [intros; eapply HA; simpl; eauto|]. rewrite E', E. simpl. exists (s' :: r). split; auto.
Qed.

Theorem c103_bary : forall g, gen3_wf g -> exists r, out_bary g = Some r /\ ssorted Z.compare (keys r) /\
  forall k b, In (k, b) r <-> exists id, In (id, b) (g_mesh g) /\ place g id k.
Proof.
  intros g (S & HM & ND & _). unfold out_bary.
  assert (G : forall fs acc, NoDup (keys fs) -> (forall k, In k (keys fs) -> In k (keys (g_faces g))) -> ssorted Z.compare (keys acc) ->
    (forall id k, In id (keys fs) -> place g id k -> ~ In k (keys acc)) ->
    exists r, place_bary (face_reindexer (g_faces g)) fs acc = Some r /\ ssorted Z.compare (keys r) /\
      forall k b, In (k, b) r <-> In (k, b) acc \/ exists id, In (id, b) fs /\ place g id k).
  { induction fs as [|[i b0] fs IH]; intros acc N1 H1 SA D1; simpl.
    - exists acc. split; auto. split; auto. intros k b. split; auto. intros [H|(? & [] & _)]; auto.
    - simpl in N1, H1, D1. inversion N1 as [|? ? N2 N3]; subst.
      destruct (place_ex g i (H1 i (or_introl eq_refl))) as (k0 & Hk0). rewrite (proj2 (proj1 (re_at_place g i S) k0) Hk0).
      assert (SA' : ssorted Z.compare (keys (map_set Z.compare k0 b0 acc))) by (apply map_set_sorted; auto using Zcompare_total).
      assert (FND : forall k b, In (k, b) (map_set Z.compare k0 b0 acc) <-> In (k, b) acc \/ (k0, b0) = (k, b)).
      { intros k b. rewrite <- !(map_find_Some Zcompare_total) by auto. rewrite (map_find_set Zcompare_total) by auto.
        destruct (Z.compare_spec k k0) as [->|H|H].
        - assert (HN : map_find Z.compare k0 acc = None) by (apply (map_find_None Zcompare_total); auto; apply (D1 i); auto).
          rewrite HN. split; [intros E; apply Some_inj in E; subst; auto|]. intros [E|E]; [discriminate|injection E; congruence].
        - split; auto. intros [E|E]; auto. injection E; lia.
        - split; auto. intros [E|E]; auto. injection E; lia. }
      destruct (IH (map_set Z.compare k0 b0 acc)) as (r & E & SR & H); auto.
      { intros id k Hid Hk HI. apply in_map_iff in HI as ([k' b'] & E & HI). simpl in E. subst k'. apply FND in HI as [HI|HI].
        - apply (D1 id k); auto. apply (in_map fst) in HI; auto.
        - injection HI as -> ->. assert (id = i) by (eapply place_inj; eauto). subst; auto. }
      exists r. split; auto. split; auto. intros k b. rewrite H, FND. split.
      + intros [[A|A]|(id & A & B)]; auto; right; [|eauto]. injection A as <- <-. eauto.
      + intros [A|(id & [A|A] & B)]; auto; [|right; eauto]. injection A as -> ->. left; right. f_equal. eapply place_fun; eauto. }
  destruct (G (g_mesh g) [] ND HM ltac:(constructor) ltac:(intros ? ? ? ? [])) as (r & E & SR & H). exists r. split; auto. split; auto.
  intros k b. rewrite H. split; [intros [[]|A]; auto|auto].
Qed.

Lemma cell_faces_spec g (S : ssorted Z.compare (keys (g_faces g))) fs : forall acc inds,
  ssorted Z.compare (keys fs) -> (forall k, In k (keys fs) -> In k (keys (g_faces g))) -> ssorted Z.compare (keys acc) ->
  (forall id k, In id (keys fs) -> place g id k -> ~ In k (keys acc)) ->
  exists r inds', cell_faces g (face_reindexer (g_faces g)) fs acc inds = Some (r, inds') /\ ssorted Z.compare (keys r) /\
    (forall k s, In (k, s) r <-> In (k, s) acc \/ exists id, In (id, s) fs /\ place g id k) /\
    (forall k, In k inds' <-> In k inds \/ exists id, In id (keys fs) /\ place g id k /\ is_folded g k = false).
Proof.
  induction fs as [|[i b0] fs IH]; intros acc inds N1 H1 SA D1; simpl.
  - exists acc, inds. split; auto. split; auto. split; intros; split; auto; intros [H|(? & [] & _)]; auto.
  - simpl in N1, H1, D1. assert (ND := ssorted_NoDup Zcompare_total N1). inversion ND as [|? ? N2 N3]; subst. inversion N1 as [|? ? _ N4]; subst.
    destruct (place_ex g i (H1 i (or_introl eq_refl))) as (k0 & Hk0). rewrite (proj2 (proj1 (re_at_place g i S) k0) Hk0).
    assert (SA' : ssorted Z.compare (keys (map_set Z.compare k0 b0 acc))) by (apply map_set_sorted; auto using Zcompare_total).
    assert (FND : forall k b, In (k, b) (map_set Z.compare k0 b0 acc) <-> In (k, b) acc \/ (k0, b0) = (k, b)).
    { intros k b. rewrite <- !(map_find_Some Zcompare_total) by auto. rewrite (map_find_set Zcompare_total) by auto.
      destruct (Z.compare_spec k k0) as [->|H|H].
      - assert (HN : map_find Z.compare k0 acc = None) by (apply (map_find_None Zcompare_total); auto; apply (D1 i); auto).
        rewrite HN. split; [intros E; apply Some_inj in E; subst; auto|]. intros [E|E]; [discriminate|injection E; congruence].
      - split; auto. intros [E|E]; auto. injection E; lia.
      - split; auto. intros [E|E]; auto. injection E; lia. }
    destruct (IH (map_set Z.compare k0 b0 acc) (if is_folded g k0 then inds else set_insert Z.compare k0 inds)) as (r & inds' & E & SR & H & HI); auto.
    { intros id k Hid Hk HI. apply in_map_iff in HI as ([k' b'] & E & HI). simpl in E. subst k'. apply FND in HI as [HI|HI].
      - apply (D1 id k); auto. apply (in_map fst) in HI; auto.
      - injection HI as -> ->. assert (id = i) by (eapply place_inj; eauto). subst; auto. }
    exists r, inds'. split; auto. split; auto. split.
    + intros k b. rewrite H, FND. split.
      * intros [[A|A]|(id & A & B)]; auto; right; [|eauto]. injection A as <- <-. eauto.
      * intros [A|(id & [A|A] & B)]; auto; [|right; eauto]. injection A as -> ->. left; right. f_equal. eapply place_fun; eauto.
    + intros k. rewrite HI. destruct (is_folded g k0) eqn:EF.
      * split; [intros [A|(id & A & B)]; eauto|]. intros [A|(id & [<-|A] & B & C)]; eauto.
        assert (k = k0) by (eapply place_fun; eauto). subst. congruence.
      * rewrite (set_insert_In Zcompare_total). split.
        -- intros [[->|A]|(id & A & B)]; eauto 8.
        -- intros [A|(id & [<-|A] & B & C)]; eauto. left; left. eapply place_fun; eauto.
Qed.

(** C103. The cells of the mesh are the generator's cells, in order, with the same signs on the same faces. *)
Theorem c103_cells : forall V g r, gen3_wf g -> out_cells V g = Some r ->
  Forall2 (fun c c' => ce_index c' = gc_index c /\ ce_region c' = gc_region c /\ ssorted Z.compare (keys (ce_faces c')) /\
     forall k s, In (k, s) (ce_faces c') <-> exists id, In (id, s) (gc_faces c) /\ place g id k) (g_cells g) r.
Proof.
  intros V g r W. unfold out_cells. rewrite (c103_faces W). intros HR. apply sequence_forall2 in HR.
  destruct W as (S & _ & _ & _ & HC). apply Forall2_nth. rewrite Forall2_nth in HR. destruct HR as [HL HR]. split; auto.
  intros i c c' Hc Hc'. specialize (HR i c c' Hc Hc'). destruct (HC c (nth_error_In _ _ Hc)) as [SC IC].
  unfold out_cell in HR.
  destruct (@cell_faces_spec g S (gc_faces c) [] [] SC IC ltac:(constructor) ltac:(intros ? ? ? ? [])) as (fs & inds & E & SF & HF & _).
  rewrite E in HR.
  assert (K : ce_index c' = gc_index c /\ ce_region c' = gc_region c /\ ce_faces c' = fs).
  { destruct (possible_cells_cell V inds _) as [pc|]; [|discriminate].
    destruct pc as [|[|x [|y [|z [|]]]] [|]]; apply Some_inj in HR; subst c'; auto. }
  destruct K as (K1 & K2 & K3). rewrite K1, K2, K3. split; [auto|split; [auto|split; [auto|]]]. intros k s. rewrite HF. split; [intros [[]|H]; auto|auto].
Qed.

(** C103. REFUTED for the folded faces: they keep the generator's ids, so a face of the mesh is called folded because another face is.
    Exactly the initial run of ids 0, 1, 2, ... is not affected. *)
Theorem c103_folded_refuted : exists g k id, gen3_wf g /\ place g id k /\ In id (g_folded g) /\ is_folded g k = false.
Proof.
  set (f := mkCutFace [] [] (MeshFace 0) (0%Qc, 0%Qc, 0%Qc) None None None).
  exists (mkGen3 [(2, f); (5, f)] [] [] [5] []), 1, 5.
  split; [|split; [exists 1%nat; auto|split; [simpl; auto|reflexivity]]].
  unfold gen3_wf; simpl. split; [repeat constructor|]. repeat split; try (intros; contradiction). constructor.
Qed.

Lemma sorted_ge l : ssorted Z.compare l -> (forall k, In k l -> 0 <= k) -> forall n id, nth_error l n = Some id -> Z.of_nat n <= id.
Proof.
  intros S. assert (G : forall b, (forall k, In k l -> b <= k) -> forall n id, nth_error l n = Some id -> b + Z.of_nat n <= id).
  { induction S as [|x l HF S' IH]; intros b HB n id E; [destruct n; discriminate|].
    destruct n as [|n]; simpl in E.
    - apply Some_inj in E. subst. specialize (HB id (or_introl eq_refl)). lia.
    - specialize (IH (b + 1)). assert (K : b + 1 + Z.of_nat n <= id); [|lia]. apply IH; auto.
      intros k Hk. rewrite Forall_forall in HF. specialize (HF k Hk). specialize (HB x (or_introl eq_refl)).
      change (x < k) in HF. lia. }
  intros HB n id E. specialize (G 0 HB n id E). lia.
Qed.

Theorem c103_folded_partial : forall g id k, gen3_wf g -> (forall j, In j (keys (g_faces g)) -> 0 <= j) ->
  (forall j, 0 <= j <= id -> In j (keys (g_faces g))) -> place g id k -> is_folded g k = true <-> In id (g_folded g).
Proof.
  intros g id k (S & _) HP HA (n & -> & Hn). assert (Hge := sorted_ge S HP _ Hn).
  assert (EQ : Z.of_nat n = id).
  { assert (Hid : 0 <= id) by lia.
    assert (ND : NoDup (map (fun j => Z.to_nat j) (keys (g_faces g)))).
    { assert (N := ssorted_NoDup Zcompare_total S). clear -N HP. induction N; simpl; constructor.
      - intros HI. apply in_map_iff in HI as (y & E & Hy). assert (y = x); [|subst; auto].
        assert (0 <= y) by (apply HP; simpl; auto). assert (0 <= x) by (apply HP; simpl; auto). lia.
      - apply IHN. intros; apply HP; simpl; auto. }
    assert (HL : (Z.to_nat id <= n)%nat); [|lia].
    assert (LEN : (length (zrange 0 (Z.to_nat id)) <= length (firstn n (keys (g_faces g))))%nat).
    { apply NoDup_incl_length; [apply NoDup_zrange|]. intros j Hj. apply zrange_In in Hj.
      assert (HJ : In j (keys (g_faces g))) by (apply HA; lia). apply In_nth_error in HJ as (m & Hm).
      assert (m < n)%nat.
      { destruct (Nat.lt_ge_cases m n) as [|HG]; auto. exfalso.
        assert (Hlt : id <= j); [|lia]. clear -S Hn Hm HG. revert n m Hn Hm HG. induction S as [|x l HF S' IH]; intros n m Hn Hm HG; [destruct n; discriminate|].
        destruct n as [|n]; simpl in Hn.
        - apply Some_inj in Hn. subst. destruct m as [|m]; simpl in Hm; [apply Some_inj in Hm; lia|].
          apply nth_error_In in Hm. rewrite Forall_forall in HF. specialize (HF _ Hm). apply (proj1 (Z.compare_lt_iff _ _)) in HF. lia.
        - destruct m as [|m]; [lia|]. simpl in Hm. eapply (IH n m); eauto. lia. }
      apply (nth_error_In _ m). rewrite <- Hm. clear -H. revert m H. generalize (keys (g_faces g)) as l. induction n; intros l m H; [lia|].
      destruct l, m; simpl; auto. apply IHn. lia. }
    rewrite zrange_length, firstn_length in LEN. lia. }
  rewrite EQ. unfold is_folded, out_folded. rewrite existsb_exists. split.
  - intros (x & Hx & E). apply Z.eqb_eq in E. subst; auto.
  - intros H. exists id. split; auto. apply Z.eqb_refl.
Qed.

(** * C104 *)
(** the grid cell x contains every face of the cell that is not called folded *)
Definition holds_base (V : Z -> vertex) (g : gen3) (c : cut_cell) (x : coord) : Prop :=
  forall k s p l j, In (k, s) (ce_faces c) -> is_folded g k = false -> nth_error (g_faces g) (Z.to_nat k) = Some p ->
    In l (cf_loops (snd p)) -> In j l -> in_closed_cell x (pos (V j)).
Definition has_base (g : gen3) (c : cut_cell) : Prop := exists k s, In (k, s) (ce_faces c) /\ is_folded g k = false.
Definition faces_ok (V : Z -> vertex) (g : gen3) : Prop :=
  forall p, In p (g_faces g) -> cf_loops (snd p) <> [] /\ forall l j, In l (cf_loops (snd p)) -> In j l -> v_wf 3 (V j) /\ normalised (V j).

Lemma pcc_spec V g inds pc : faces_ok V g ->
  possible_cells_cell V inds (map (fun p => Some (snd p)) (g_faces g)) = Some pc -> 
  ssorted zlex pc /\ (inds = [] -> pc = []) /\
  (inds <> [] -> (forall x, In x pc <-> forall k p l j, In k inds -> nth_error (g_faces g) (Z.to_nat k) = Some p -> In l (cf_loops (snd p)) -> In j l ->
     in_closed_cell x (pos (V j))) /\ forall x, In x pc -> length x = 3%nat).
Proof.
  intros HF. unfold possible_cells_cell. destruct inds as [|k0 inds0] eqn:EI.
  { intros E. apply Some_inj in E. subst pc. split; [constructor|]. split; auto. intros H; congruence. }
  rewrite <- EI. set (get := fun k => _). destruct (sequence (map get inds)) as [[|s0 ss]|] eqn:ES; try discriminate.
  intros E. apply Some_inj in E. subst pc. assert (F := sequence_forall2 _ _ ES).
  assert (SRT : forall k s, get k = Some s -> ssorted zlex s /\ exists p, nth_error (g_faces g) (Z.to_nat k) = Some p /\ gen_possible_cells2 V (cf_loops (snd p)) = Some s).
  { intros k s H. unfold get in H. rewrite nth_error_map in H. destruct (nth_error (g_faces g) (Z.to_nat k)) as [p|] eqn:EP; [|discriminate].
    simpl in H. split; eauto. unfold gen_possible_cells2 in H. destruct (cf_loops (snd p)) as [|[|f0 l0] t]; try discriminate.
    - apply Some_inj in H. subst. constructor.
    - apply Some_inj in H. subst. apply intersect_loop_sorted. apply v_possible_cells_sorted. }
  assert (S0 : get k0 = Some s0). { rewrite EI in F. inversion F; auto. }
  assert (SPEC : forall k s p, get k = Some s -> nth_error (g_faces g) (Z.to_nat k) = Some p ->
     forall x, In x s <-> forall l j, In l (cf_loops (snd p)) -> In j l -> in_closed_cell x (pos (V j))).
  { intros k s p H HP x. destruct (SRT k s H) as [_ (p' & HP' & E)]. rewrite HP in HP'. apply Some_inj in HP'. subst p'.
    destruct (HF p (nth_error_In _ _ HP)) as [NE WF]. apply (proj2 (c06_generator_loops V 3 (cf_loops (snd p)) WF) s E NE). }
  split; [|split; [intros EE; congruence|]].
  - apply intersect_loop_sorted. apply (SRT k0 s0 S0).
  - intros _. split.
    + intros x. rewrite intersect_loop_In. split.
      * intros [_ H] k p l j Hk HP. assert (exists s, get k = Some s /\ In s (s0 :: ss)) as (s & Hs & Hin).
        { rewrite Forall2_nth in F. destruct F as [FL FF]. apply In_nth_error in Hk as (n & Hk).
          destruct (nth_error_lt _ (s0 :: ss) n) as (s & Hs); [rewrite <- FL; eapply nth_error_Some_lt; eauto|]. exists s. split; eauto using nth_error_In. }
        apply (SPEC k s p Hs HP); auto.
      * intros H. assert (K : forall s, In s (s0 :: ss) -> In x s).
        { intros s Hs. apply In_nth_error in Hs as (n & Hs). rewrite Forall2_nth in F. destruct F as [FL FF].
          destruct (nth_error_lt _ inds n) as (k & Hk); [rewrite FL; eapply nth_error_Some_lt; eauto|]. assert (HG := FF _ _ _ Hk Hs).
          destruct (SRT k s HG) as [_ (p & HP & _)]. apply (SPEC k s p HG HP). intros l j. apply H with (k := k); auto. eapply nth_error_In; eauto. }
        split; [apply K; simpl; auto|auto].
    + intros x H. apply intersect_loop_In in H as [H _]. destruct (SRT k0 s0 S0) as [_ (p & HP & E)].
      destruct (HF p (nth_error_In _ _ HP)) as [NE WF]. unfold gen_possible_cells2 in E.
      destruct (cf_loops (snd p)) as [|[|f0 l0] t] eqn:EL; [congruence|discriminate|].
      assert (C : in_closed_cell x (pos (V f0))) by (apply (SPEC k0 s0 p S0 HP) with (l := f0 :: l0); [auto|rewrite EL; simpl; auto|simpl; auto]).
      destruct (WF (f0 :: l0) f0) as [W _]; simpl; auto. destruct (len3_cell W C) as (a & b & c & ->). auto.
Qed.

(** C104. A cut cell's grid cell is the one grid cell that contains all its unfolded faces, if there is exactly one; a grid cell other than
    (0,0,0) is never anything else. *)
Theorem c104_grid_cell : forall V g r c', gen3_wf g -> faces_ok V g -> out_cells V g = Some r -> In c' r ->
  (forall x y z, has_base g c' -> (forall a, holds_base V g c' a <-> a = [x; y; z]) -> ce_grid c' = (x, y, z)) /\
  (ce_grid c' <> (0, 0, 0) -> has_base g c' /\ forall a, holds_base V g c' a <-> a = list3 (ce_grid c')).
Proof.
  intros V g r c' W HF HR Hc'. unfold out_cells in HR. rewrite (c103_faces W) in HR. apply sequence_forall2 in HR.
  rewrite Forall2_nth in HR. destruct HR as [HL HR]. apply In_nth_error in Hc' as (i & Hc').
  destruct (nth_error_lt _ (g_cells g) i) as (c & Hc); [rewrite HL; eapply nth_error_Some_lt; eauto|].
  specialize (HR i c c' Hc Hc'). destruct W as (S & _ & _ & _ & HC). destruct (HC c (nth_error_In _ _ Hc)) as [SC IC].
  unfold out_cell in HR.
  destruct (@cell_faces_spec g S (gc_faces c) [] [] SC IC ltac:(constructor) ltac:(intros ? ? ? ? [])) as (fs & inds & E & SF & HFS & HI).
  rewrite E in HR. destruct (possible_cells_cell V inds _) as [pc|] eqn:EPC; [|discriminate].
  destruct (pcc_spec inds HF EPC) as (SP & P0 & P1).
  assert (EF : ce_faces c' = fs) by (destruct pc as [|[|x [|y [|z [|]]]] [|]]; apply Some_inj in HR; subst c'; auto).
  assert (HINDS : forall k, In k inds <-> exists s, In (k, s) (ce_faces c') /\ is_folded g k = false).
  { intros k. rewrite HI, EF. split.
    - intros [[]|(id & A & B & C)]. apply in_map_iff in A as ([id' s] & EE & A). simpl in EE. subst id'. exists s. split; auto. apply HFS. eauto.
    - intros (s & A & B). apply HFS in A as [[]|(id & A & C)]. right. exists id. split; auto. apply (in_map fst) in A. auto. }
  assert (HB : has_base g c' <-> inds <> []).
  { unfold has_base. split.
    - intros (k & s & A & B) EE. assert (In k inds) by (apply HINDS; eauto). rewrite EE in H. destruct H.
    - intros H. destruct inds as [|k t]; [congruence|]. destruct (proj1 (HINDS k) (or_introl eq_refl)) as (s & A & B). eauto. }
  assert (HO : inds <> [] -> forall a, In a pc <-> holds_base V g c' a).
  { intros NE a. destruct (P1 NE) as [P _]. rewrite P. unfold holds_base. split.
    - intros H k s p l j A B. apply H. apply HINDS; eauto.
    - intros H k p l j A B. apply HINDS in A as (s & A & A'). eapply H; eauto. }
  split.
  - intros x y z B HA. apply HB in B. specialize (HO B).
    assert (EP : pc = [[x; y; z]]).
    { apply (ssorted_ext zlex_total); auto; [repeat constructor|]. intros a. rewrite HO, HA. simpl. intuition. }
    rewrite EP in HR. apply Some_inj in HR. subst c'. auto.
  - intros NZ. assert (K : exists x y z, pc = [[x; y; z]] /\ ce_grid c' = (x, y, z)).
    { destruct pc as [|[|x [|y [|z [|]]]] [|]]; apply Some_inj in HR; subst c'; simpl in NZ; try congruence. eauto. }
    destruct K as (x & y & z & EP & EG). assert (NE : inds <> []) by (intros EE; rewrite (P0 EE) in EP; discriminate).
    split; [apply HB; auto|]. intros a. rewrite <- (HO NE), EP, EG. simpl. intuition.
Qed.

(** REFUTED that every cut cell is given the grid cell it lies in: a wrongly numbered folded face hides the faces of a cell inside grid cell
    (1,1,1). *)
Definition c104_V : Z -> vertex := fun i => vertex_cq [1; 1; 1] [Q2Qc (Qmake (i + 1) 8); qhalf; qhalf].
Definition c104_face (l : list Z) : cut_face := mkCutFace [None; None; None] [l] (MeshFace 0) (0%Qc, 0%Qc, 1%Qc) None None None.
Definition c104_g (folded : list Z) : gen3 :=
  mkGen3 [(1, c104_face [0; 1; 2]); (2, c104_face [0; 1; 3])] [] [] folded [mkGC [(2, true)] 0 1].

Lemma c104_wf folded : gen3_wf (c104_g folded).
Proof.
  unfold gen3_wf; simpl. split; [repeat constructor|]. split; [intros ? []|]. split; [constructor|]. split; [intros ? ? []|].
  intros c [<-|[]]; simpl. split; [repeat constructor|]. tauto.
Qed.

Lemma c104_V_ok j : In j [0; 1; 2; 3] -> v_wf 3 (c104_V j) /\ normalised (c104_V j).
Proof. intros H. split; [repeat split|]. repeat destruct H as [<-|H]; [..|destruct H]; unfold normalised; repeat constructor; vm_compute; congruence. Qed.

Lemma c104_faces_ok folded : faces_ok c104_V (c104_g folded).
Proof.
  intros p [<-|[<-|[]]]; simpl; (split; [discriminate|]); intros l j [<-|[]] Hj; apply c104_V_ok; simpl in *; intuition.
Qed.

Theorem c104_grid_cell_refuted : exists V g r c', gen3_wf g /\ faces_ok V g /\ out_cells V g = Some r /\ In c' r /\
  (forall p l j, In p (g_faces g) -> In l (cf_loops (snd p)) -> In j l -> forall a, in_closed_cell a (pos (V j)) <-> a = [1; 1; 1]) /\
  (forall k, In k (keys (gc_faces (mkGC [(2, true)] 0 1))) -> ~ In k (g_folded g)) /\
  ce_grid c' = (0, 0, 0).
Proof.
  exists c104_V, (c104_g [1]), [mkCutCell [(1, true)] 0 1 (0, 0, 0)], (mkCutCell [(1, true)] 0 1 (0, 0, 0)).
  split; [apply c104_wf|]. split; [apply c104_faces_ok|]. split; [vm_compute; reflexivity|]. split; [simpl; auto|].
  split; [|split; [|reflexivity]].
  - intros p l j Hp Hl Hj. assert (HJ : In j [0; 1; 2; 3]). { destruct Hp as [<-|[<-|[]]]; destruct Hl as [<-|[]]; simpl in *; intuition. }
    intros a. destruct (c104_V_ok HJ) as [W N].
    rewrite <- (v_possible_cells_In 3 (c104_V j) a W N).
    repeat destruct HJ as [<-|HJ]; [..|destruct HJ]; vm_compute; intuition.
  - simpl. intros k [<-|[]] [|[]]. discriminate.
Qed.

(** without folded faces the same cell gets its grid cell *)
Example c104_witness : out_cells c104_V (c104_g []) = Some [mkCutCell [(1, true)] 0 1 (1, 1, 1)].
Proof. vm_compute. reflexivity. Qed.
