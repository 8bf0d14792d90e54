(** C37, C61: the staggered grid operator of diffgeo_utils. *)
From Coq Require Import Permutation.
From Verif Require Import Base Num Sparse Diffgeo.
Set Implicit Arguments.
Local Open Scope Z_scope.

(** ** specification: faces of an ni x nj grid of cells *)
Inductive gface := U (i j : Z) (* face x = i, between cells (i-1,j) and (i,j) *) | W (i j : Z) (* face y = j, between cells (i,j-1) and (i,j) *).
Definition valid_face (ni nj : Z) (f : gface) : Prop :=
  match f with U i j => 0 <= i <= ni /\ 0 <= j < nj | W i j => 0 <= i < ni /\ 0 <= j <= nj end.
Definition on_side (ni nj : Z) (f : gface) : Prop := match f with U i _ => i = 0 \/ i = ni | W _ j => j = 0 \/ j = nj end.
(** x-faces first, then y-faces, both x-fastest *)
Definition face_index (ni nj : Z) (f : gface) : Z := match f with U i j => i + j * (ni + 1) | W i j => (ni + 1) * nj + (i + j * ni) end.
(** +1 for the cell on the upper side of the face, -1 for the cell on the lower side *)
Definition incidence (f : gface) (ci cj : Z) : Qc :=
  match f with
  | U i j => if (ci =? i) && (cj =? j) then 1%Qc else if (ci =? i - 1) && (cj =? j) then (- (1))%Qc else 0%Qc
  | W i j => if (ci =? i) && (cj =? j) then 1%Qc else if (ci =? i) && (cj =? j - 1) then (- (1))%Qc else 0%Qc
  end.
Definition num_faces (ni nj : Z) : Z := (ni + 1) * nj + (nj + 1) * ni.

Lemma lin_inj n a b i j : 0 <= a < n -> 0 <= i < n -> a + b * n = i + j * n -> a = i /\ b = j.
Proof. intros A I E. assert (b = j) by nia. subst. lia. Qed.
Lemma lin_range n m a b : 0 <= a < n -> 0 <= b < m -> 0 <= a + b * n < n * m.
Proof. intros. nia. Qed.
(** Faces are numbered 0 .. number of faces - 1 without gaps or collisions. *)
Theorem c37_face_numbering ni nj : (forall f g, valid_face ni nj f -> valid_face ni nj g -> face_index ni nj f = face_index ni nj g -> f = g) /\
  (forall k, 0 <= ni -> 0 <= nj -> (0 <= k < num_faces ni nj <-> exists f, valid_face ni nj f /\ face_index ni nj f = k)).
Proof.
  split.
  - intros [i j|i j] [i' j'|i' j']; cbn; intros [A B] [C D] E.
    + destruct (@lin_inj (ni + 1) i j i' j'); try lia. subst; auto.
    + assert (R := @lin_range (ni + 1) nj i j). nia.
    + assert (R := @lin_range (ni + 1) nj i' j'). nia.
    + destruct (@lin_inj ni i j i' j'); try lia. subst; auto.
  - intros k N0 N1. unfold num_faces. split.
    + intros H. destruct (Z_lt_le_dec k ((ni + 1) * nj)) as [L|L].
      * exists (U (k mod (ni + 1)) (k / (ni + 1))). cbn. assert (M := Z.mod_pos_bound k (ni + 1)). assert (D := Z.div_mod k (ni + 1)).
        assert (0 <= k / (ni + 1)) by (apply Z.div_pos; lia). assert (k / (ni + 1) < nj) by (apply Z.div_lt_upper_bound; lia). lia.
      * exists (W ((k - (ni + 1) * nj) mod ni) ((k - (ni + 1) * nj) / ni)). cbn. set (q := k - (ni + 1) * nj) in *.
        assert (P : 0 < ni) by nia. assert (M := Z.mod_pos_bound q ni P). assert (D := Z.div_mod q ni).
        assert (0 <= q / ni) by (apply Z.div_pos; lia). assert (q / ni < nj + 1) by (apply Z.div_lt_upper_bound; nia). lia.
    + intros ([i j|i j] & [A B] & <-); cbn.
      * assert (R := @lin_range (ni + 1) nj i j). nia.
      * assert (R := @lin_range ni (nj + 1) i j). nia.
Qed.

(** what the flag removes: the sides of the domain for x-faces and the first y side; for the upper y side it removes the face above row ni - 1 from that row *)
Definition dropped (ni nj : Z) (f : gface) (ci cj : Z) : bool :=
  match f with U i _ => (i =? 0) || (i =? ni) | W _ j => (j =? 0) || (j =? ni) && (cj =? ni - 1) end.
Lemma coeff_cell ni nj d f i j : valid_face ni nj f -> 0 <= i < ni -> 0 <= j < nj ->
  coeff (cell_triplets ni nj d i j) (face_index ni nj f) (i + ni * j) = if d && dropped ni nj f i j then 0%Qc else incidence f i j.
Proof.
  intros V I J. unfold cell_triplets. rewrite !coeff_app.
  assert (E : forall (b : bool) r v, coeff (if b then [] else [(r, i + ni * j, v)]) (face_index ni nj f) (i + ni * j) = if b then 0%Qc else if r =? face_index ni nj f then v else 0%Qc).
  { intros b r v. destruct b; [reflexivity|]. unfold coeff. cbn [lsum t_row t_col t_val fst snd]. rewrite Z.eqb_refl, Bool.andb_true_r. destruct (r =? _); ring. }
  rewrite !E. clear E.
  assert (U1 : forall i' , 0 <= i' <= ni -> (u_ind ni nj i' j =? face_index ni nj f) = match f with U a b => (a =? i') && (b =? j) | W _ _ => false end).
  { intros i' Hi'. unfold u_ind. destruct f as [a b|a b]; cbn in V |- *.
    - destruct (Z.eqb_spec (i' + j * (ni + 1)) (a + b * (ni + 1))) as [E|E]; symmetry.
      + destruct (@lin_inj (ni + 1) i' j a b); lia.
      + apply andb_false_iff. destruct (Z.eq_dec a i') as [->|]; [right|left]; apply Z.eqb_neq; auto. intros ->. auto.
    - apply Z.eqb_neq. assert (R := @lin_range (ni + 1) nj i' j). nia. }
  assert (V1 : forall j' , 0 <= j' <= nj -> (v_ind ni nj i j' =? face_index ni nj f) = match f with W a b => (a =? i) && (b =? j') | U _ _ => false end).
  { intros j' Hj'. unfold v_ind. destruct f as [a b|a b]; cbn in V |- *.
    - apply Z.eqb_neq. assert (R := @lin_range (ni + 1) nj a b). nia.
    - destruct (Z.eqb_spec (i + j' * ni + (ni + 1) * nj) ((ni + 1) * nj + (a + b * ni))) as [E|E]; symmetry.
      + destruct (@lin_inj ni i j' a b); lia.
      + apply andb_false_iff. destruct (Z.eq_dec a i) as [->|]; [right|left]; apply Z.eqb_neq; auto. intros ->. apply E. lia. }
  rewrite !U1, !V1 by lia. clear U1 V1. unfold dropped, incidence.
  destruct f as [a b|a b]; cbn in V.
  - destruct (Z.eqb_spec i 0), (Z.eqb_spec i (ni - 1)), (Z.eqb_spec j 0), (Z.eqb_spec j (ni - 1)), (Z.eqb_spec a i), (Z.eqb_spec a (i + 1)), (Z.eqb_spec b j), (Z.eqb_spec a 0), (Z.eqb_spec a ni), (Z.eqb_spec i a), (Z.eqb_spec j b), (Z.eqb_spec i (a - 1)), d; cbn [andb orb]; try lia; try reflexivity.
  - destruct (Z.eqb_spec i 0), (Z.eqb_spec i (ni - 1)), (Z.eqb_spec j 0), (Z.eqb_spec j (ni - 1)), (Z.eqb_spec a i), (Z.eqb_spec b j), (Z.eqb_spec b (j + 1)), (Z.eqb_spec b 0), (Z.eqb_spec b ni), (Z.eqb_spec i a), (Z.eqb_spec j b), (Z.eqb_spec j (b - 1)), d; cbn [andb orb]; try lia; try reflexivity.
Qed.
Lemma coeff_grid ni nj d f ci cj : valid_face ni nj f -> 0 <= ci < ni -> 0 <= cj < nj ->
  coeff (grid_boundary ni nj d) (face_index ni nj f) (ci + ni * cj) = if d && dropped ni nj f ci cj then 0%Qc else incidence f ci cj.
Proof.
  intros V I J. unfold grid_boundary. rewrite coeff_flat.
  assert (Z0 : forall i j, 0 <= i < ni -> 0 <= j < nj -> (i, j) <> (ci, cj) -> coeff (cell_triplets ni nj d i j) (face_index ni nj f) (ci + ni * cj) = 0%Qc).
  { intros i j Hi Hj N. apply coeff_0. intros v H. assert (E : i + ni * j = ci + ni * cj).
    { unfold cell_triplets in H. repeat (apply in_app_or in H as [H|H]); match type of H with In _ (if ?b then _ else _) => destruct b end; cbn in H; intuition congruence. }
    apply N. destruct (@lin_inj ni i j ci cj); try lia. congruence. }
  rewrite (@lsum_single _ _ _ cj (zseq_nodup nj)); [|apply zseq_in; auto|].
  - rewrite coeff_flat, (@lsum_single _ _ _ ci (zseq_nodup ni)); [|apply zseq_in; auto|].
    + apply coeff_cell; auto.
    + intros i Hi N. apply zseq_in in Hi. apply Z0; auto. congruence.
  - intros j Hj N. apply zseq_in in Hj. rewrite coeff_flat. apply lsum_0. intros i Hi. apply zseq_in in Hi. apply Z0; auto. congruence.
Qed.
(** Without the flag: the signed face-cell incidence, for every grid. *)
Theorem c37_plain ni nj f ci cj : valid_face ni nj f -> 0 <= ci < ni -> 0 <= cj < nj ->
  coeff (grid_boundary ni nj false) (face_index ni nj f) (ci + ni * cj) = incidence f ci cj.
Proof. intros. apply coeff_grid; auto. Qed.
(** With the flag, on square grids: exactly the entries of faces on the four sides are gone.  Missing from the full property: non-square grids, where it is false (c37_dirichlet_refuted). *)
Theorem c37_dirichlet_square_partial n f ci cj : valid_face n n f -> 0 <= ci < n -> 0 <= cj < n ->
  (on_side n n f -> coeff (grid_boundary n n true) (face_index n n f) (ci + n * cj) = 0%Qc) /\
  (~ on_side n n f -> coeff (grid_boundary n n true) (face_index n n f) (ci + n * cj) = incidence f ci cj).
Proof.
  intros V I J. rewrite coeff_grid by auto. cbn [andb]. unfold dropped, on_side, incidence. destruct f as [a b|a b]; cbn in V; split; intros S.
  - destruct (Z.eqb_spec a 0), (Z.eqb_spec a n); cbn; try reflexivity; lia.
  - destruct (Z.eqb_spec a 0), (Z.eqb_spec a n); cbn; try reflexivity; lia.
  - destruct (Z.eqb_spec b 0), (Z.eqb_spec b n), (Z.eqb_spec cj (n - 1)), (Z.eqb_spec ci a), (Z.eqb_spec cj b), (Z.eqb_spec cj (b - 1)); cbn; try reflexivity; lia.
  - destruct (Z.eqb_spec b 0), (Z.eqb_spec b n); cbn; try reflexivity; lia.
Qed.
(** On every non-square grid the flag does something else: some entry of a side face stays, or some interior entry is gone. *)
Theorem c37_dirichlet_refuted ni nj : 0 < ni -> 0 < nj -> ni <> nj ->
  exists f ci cj, valid_face ni nj f /\ 0 <= ci < ni /\ 0 <= cj < nj /\ on_side ni nj f /\ incidence f ci cj <> 0%Qc /\
    coeff (grid_boundary ni nj true) (face_index ni nj f) (ci + ni * cj) = incidence f ci cj.
Proof.
  intros A B N. exists (W 0 nj), 0, (nj - 1). split; [cbn; lia|]. split; [lia|]. split; [lia|]. split; [right; auto|]. split.
  - cbn. destruct (Z.eqb_spec (nj - 1) nj); [lia|]. rewrite Z.eqb_refl. discriminate.
  - rewrite coeff_grid by (cbn; lia). unfold dropped. destruct (Z.eqb_spec nj 0), (Z.eqb_spec nj ni); cbn [andb orb]; try reflexivity; lia.
Qed.
Theorem c37_dirichlet_interior_refuted ni nj : 0 < ni -> ni < nj ->
  exists f ci cj, valid_face ni nj f /\ 0 <= ci < ni /\ 0 <= cj < nj /\ ~ on_side ni nj f /\ incidence f ci cj = (- (1))%Qc /\
    coeff (grid_boundary ni nj true) (face_index ni nj f) (ci + ni * cj) = 0%Qc.
Proof.
  intros A B. exists (W 0 ni), 0, (ni - 1). split; [cbn; lia|]. split; [lia|]. split; [lia|]. split; [cbn; lia|]. split.
  - cbn. destruct (Z.eqb_spec (ni - 1) ni); [lia|]. rewrite Z.eqb_refl. auto.
  - rewrite coeff_grid by (cbn; lia). unfold dropped. rewrite !Z.eqb_refl, Bool.orb_true_r. auto.
Qed.
(** No entry outside the matrix. *)
Theorem c37_in_range ni nj d t : In t (grid_boundary ni nj d) -> 0 <= t_row t < num_faces ni nj /\ 0 <= t_col t < ni * nj.
Proof.
  unfold grid_boundary. rewrite in_flat_map. intros (j & Hj & H). rewrite in_flat_map in H. destruct H as (i & Hi & H). apply zseq_in in Hi, Hj.
  assert (R := @lin_range ni nj i j Hi Hj). assert (R1 := @lin_range (ni + 1) nj i j). assert (R2 := @lin_range (ni + 1) nj (i + 1) j).
  assert (R3 := @lin_range ni (nj + 1) i j). assert (R4 := @lin_range ni (nj + 1) i (j + 1)).
  unfold cell_triplets, u_ind, v_ind in H. unfold num_faces. repeat (apply in_app_or in H as [H|H]); match type of H with In _ (if ?b then _ else _) => destruct b end; cbn in H; try contradiction; destruct H as [<-|[]]; cbn; nia.
Qed.
Example c37_nonvacuous : valid_face 3 2 (W 1 2) /\ on_side 3 2 (W 1 2) /\ coeff (grid_boundary 3 2 true) (face_index 3 2 (W 1 2)) (1 + 3 * 1) = (- (1))%Qc.
Proof. split; [cbn; lia|]. split; [right; reflexivity|]. vm_compute. apply Qc_is_canon. reflexivity. Qed.

(** ** C61: grid_edgeratio *)
Lemma written_spec ws k v : NoDup (map fst ws) -> In (k, v) ws -> written ws k = Some v.
Proof.
  unfold written. generalize (@None Qc). induction ws as [|[i w] ws IH]; intros acc ND I; [destruct I|]. cbn in ND |- *. inversion ND as [|? ? NI ND']; subst.
  destruct I as [[= -> ->]|I]; [|apply IH; auto]. rewrite Z.eqb_refl.
  assert (G : forall (ws : list (Z * Qc)) acc, ~ In k (map fst ws) -> fold_left (fun (acc : option Qc) '(i, v) => if i =? k then Some v else acc) ws acc = acc).
  { clear. induction ws as [|[i w] ws IH]; intros acc N; cbn; auto. cbn in N. destruct (Z.eqb_spec i k); [tauto|]. apply IH. tauto. }
  apply G. auto.
Qed.
Lemma nodup_flat_map (A B : Type) (g : A -> list B) (key : B -> A) l : NoDup l -> (forall a, In a l -> NoDup (g a)) -> (forall a b, In a l -> In b (g a) -> key b = a) -> NoDup (flat_map g l).
Proof.
  induction l as [|a l IH]; intros ND N K; cbn; [constructor|]. inversion ND as [|? ? NI ND']; subst.
  assert (X : forall (p q : list B), NoDup p -> NoDup q -> (forall x, In x p -> ~ In x q) -> NoDup (p ++ q)).
  { clear. induction p as [|x p IH]; intros q P Q D; cbn; auto. inversion P; subst. constructor; [rewrite in_app_iff; intros [?|?]; [contradiction|apply (D x); cbn; auto]|apply IH; auto; intros; apply D; cbn; auto]. }
  apply X; [apply N; cbn; auto|apply IH; auto; intros; [apply N|apply K]; cbn; auto|].
  intros b Hb H. apply in_flat_map in H as (a' & Ha' & Hb'). assert (key b = a) by (apply K; cbn; auto). assert (key b = a') by (apply K; cbn; auto). congruence.
Qed.
Definition end_points (f : gface) : (Z * Z) * (Z * Z) := match f with U i j => ((i, j), (i, j + 1)) | W i j => ((i, j), (i + 1, j)) end.
(** vertex (i, j) of the (ni+1) x (nj+1) vertices, x fastest *)
Definition at_vertex (ni : Z) (phi : Z -> Qc) (v : Z * Z) : Qc := phi (fst v + snd v * (ni + 1)).
(** The faces in numbering order are written once each, and every entry is the fraction of the edge between the end points of that face. *)
Theorem c61_edge_fractions fi ni nj phi f : 0 <= ni -> 0 <= nj -> valid_face ni nj f ->
  written (edgeratio_writes fi ni nj phi) (face_index ni nj f) = Some (fi (at_vertex ni phi (fst (end_points f))) (at_vertex ni phi (snd (end_points f)))).
Proof.
  intros N0 N1 V. apply written_spec.
  - unfold edgeratio_writes. rewrite map_app, !flat_map_concat_map, !concat_map, !map_map, <- !flat_map_concat_map.
    match goal with |- NoDup (flat_map ?g1 ?l1 ++ flat_map ?g2 ?l2) =>
      rewrite (flat_map_ext g1 (fun j => map (fun i => face_index ni nj (U i j)) (zseq (ni + 1))) ltac:(intros; cbv beta; rewrite map_map; reflexivity) l1),
        (flat_map_ext g2 (fun j => map (fun i => face_index ni nj (W i j)) (zseq ni)) ltac:(intros; cbv beta; rewrite map_map; apply map_ext; intros; cbn; unfold v_ind; lia) l2) end.
    assert (E : flat_map (fun j => map (fun i => face_index ni nj (U i j)) (zseq (ni + 1))) (zseq nj) ++ flat_map (fun j => map (fun i => face_index ni nj (W i j)) (zseq ni)) (zseq (nj + 1)) =
      map (face_index ni nj) (flat_map (fun j => map (fun i => U i j) (zseq (ni + 1))) (zseq nj) ++ flat_map (fun j => map (fun i => W i j) (zseq ni)) (zseq (nj + 1)))).
    { rewrite map_app. f_equal; rewrite !flat_map_concat_map, concat_map, map_map; f_equal; apply map_ext; intros; rewrite map_map; auto. }
    rewrite E. assert (VF : forall g, In g (flat_map (fun j => map (fun i => U i j) (zseq (ni + 1))) (zseq nj) ++ flat_map (fun j => map (fun i => W i j) (zseq ni)) (zseq (nj + 1))) -> valid_face ni nj g).
    { intros g H. apply in_app_or in H as [H|H]; apply in_flat_map in H as (j & Hj & H); apply in_map_iff in H as (i & <- & Hi); apply zseq_in in Hi, Hj; cbn; lia. }
    assert (ND : NoDup (flat_map (fun j => map (fun i => U i j) (zseq (ni + 1))) (zseq nj) ++ flat_map (fun j => map (fun i => W i j) (zseq ni)) (zseq (nj + 1)))).
    { assert (X : forall (p q : list gface), NoDup p -> NoDup q -> (forall x, In x p -> ~ In x q) -> NoDup (p ++ q)).
      { clear. induction p as [|x p IH]; intros q P Q D; cbn; auto. inversion P; subst. constructor; [rewrite in_app_iff; intros [?|?]; [contradiction|apply (D x); cbn; auto]|apply IH; auto; intros; apply D; cbn; auto]. }
      set (key := fun g => match g with U _ j => j | W _ j => j end).
      apply X.
      - apply nodup_flat_map with (key := key); [apply zseq_nodup| |].
        + intros j _. apply FinFun.Injective_map_NoDup; [intros a b [= ->]; auto|apply zseq_nodup].
        + intros j b _ H. apply in_map_iff in H as (i & <- & _). auto.
      - apply nodup_flat_map with (key := key); [apply zseq_nodup| |].
        + intros j _. apply FinFun.Injective_map_NoDup; [intros a b [= ->]; auto|apply zseq_nodup].
        + intros j b _ H. apply in_map_iff in H as (i & <- & _). auto.
      - intros g H H'. apply in_flat_map in H as (j & _ & H). apply in_map_iff in H as (i & <- & _). apply in_flat_map in H' as (j' & _ & H'). apply in_map_iff in H' as (i' & E' & _). discriminate. }
    revert VF ND. generalize (flat_map (fun j => map (fun i => U i j) (zseq (ni + 1))) (zseq nj) ++ flat_map (fun j => map (fun i => W i j) (zseq ni)) (zseq (nj + 1))). clear E.
    induction l as [|g l IH]; intros VF ND; cbn; [constructor|]. inversion ND as [|? ? NI ND']; subst. constructor; [|apply IH; auto; intros; apply VF; cbn; auto].
    intros H. apply in_map_iff in H as (g' & E & H). apply (proj1 (c37_face_numbering ni nj)) in E; [subst; contradiction|apply VF; cbn; auto|apply VF; cbn; auto].
  - unfold edgeratio_writes. apply in_or_app. destruct f as [i j|i j]; cbn in V; [left|right]; apply in_flat_map; exists j; (split; [apply zseq_in; lia|]); apply in_map_iff; exists i; (split; [|apply zseq_in; lia]); cbn; f_equal; unfold v_ind, u_ind; lia.
Qed.
(** phi is read inside its (ni+1)(nj+1) entries. *)
Theorem c61_reads_in_range ni nj f v : valid_face ni nj f -> v = fst (end_points f) \/ v = snd (end_points f) -> 0 <= fst v + snd v * (ni + 1) < (ni + 1) * (nj + 1).
Proof.
  intros V H. assert (R := @lin_range (ni + 1) (nj + 1) (fst v) (snd v)). destruct f as [i j|i j]; cbn in V, H; destruct H as [->| ->]; cbn in *; lia.
Qed.
Example c61_nonvacuous : written (edgeratio_writes Qcplus 2 1 (fun k => Z2Qc k)) (face_index 2 1 (W 1 1)) = Some (Z2Qc 9).
Proof. vm_compute. reflexivity. Qed.
