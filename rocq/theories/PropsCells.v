(** Properties C20-C22, C53: construction::CellCollapser. *)
From Verif Require Import Base Num SmallestEdge DisjointSet FaceCollapser CellCollapser CellCollapserSpec
  CellCollapserProofs CellCollapserMerge CellCollapserClean.
From Coq Require Import Relations Permutation.
Local Open Scope Z_scope.

(** the face ids that the collapser keeps *)
Definition kept (faces : list (Z * list loop)) (f : Z) : Prop := In f (map fst (cc_faces (cc_build faces))).
(** side s of face f lies along the directed edge e *)
Definition has_side (faces : list (Z * list loop)) (f : Z) (e : edge) (s : bool) : Prop := side_at (cc_hf (cc_build faces)) f e s.

(** C20: for every family of faces with non-negative ids (whatever their loops), every cyclic-order function and every
    behaviour of the union-find's linking, there is a map from sides to cells such that the half-faces of a side all lie in that one cell,
    ids are 0..n-1 and all used, folded faces are those whose sides coincide, and every unfolded face occurs in exactly the two cells
    of its sides, with opposite signs. *)
Theorem c20_every_side_in_one_cell lnk ord open faces :
  (forall f, In f (map fst faces) -> 0 <= f) ->
  let r := collapse lnk ord open faces in let n := Z.of_nat (length (cl_bnd r)) in
  exists cell : Z -> bool -> Z,
    (forall f e s, has_side faces f e s -> cell_id (cl_hf r) (f, e) = Some (cell f s)) /\
    (forall f s, kept faces f -> 0 <= cell f s < n /\ exists e, has_side faces f e s) /\
    (forall c, 0 <= c < n -> exists f s, kept faces f /\ cell f s = c) /\
    (forall f, In f (folded_faces (cl_hf r)) <-> kept faces f /\ cell f true = cell f false) /\
    (forall f s c b, kept faces f -> ~ In f (folded_faces (cl_hf r)) -> nth_error (cl_bnd r) c = Some b ->
       (map_find Z.compare f b = Some s <-> cell f s = Z.of_nat c)) /\
    (forall f c b, kept faces f -> In f (folded_faces (cl_hf r)) -> nth_error (cl_bnd r) c = Some b ->
       ((exists s, map_find Z.compare f b = Some s) <-> cell f true = Z.of_nat c)) /\
    (forall f c b s, nth_error (cl_bnd r) c = Some b -> map_find Z.compare f b = Some s -> kept faces f).
Proof.
  intros FP r n. destruct (sides_ok lnk ord open faces FP) as (sc & S1 & S2 & S3 & S4 & S5 & _). fold r in S1, S2, S3, S4, S5. fold n in S2, S3.
  exists sc. split; [intros f e s H; apply S1; auto|]. split; [intros f s H; destruct (S2 f s H); auto|]. split; [auto|]. split; [apply S5|]. split; [|split].
  - intros f s c b HK NF Hb. destruct (S4 c b f s Hb) as (B1 & B2 & B3). split; [intros H; apply B1; auto|]. intros E. apply B2; auto.
    intros E'. apply NF, S5. split; auto. destruct s; simpl in E'; congruence.
  - intros f c b HK HF Hb. apply S5 in HF as [_ E]. split.
    + intros [s H]. destruct (S4 c b f s Hb) as (B1 & _). apply B1 in H as [_ H]. destruct s; congruence.
    + intros H. destruct (S4 c b f true Hb) as (_ & _ & B3). auto.
  - intros f c b s Hb H. destruct (S4 c b f s Hb) as (B1 & _). apply B1 in H as [H _]; auto.
Qed.
(** so an unfolded face is in exactly two cells, positively in one and negatively in the other *)
Theorem c20_unfolded_face_separates_two_cells lnk ord open faces f :
  (forall f, In f (map fst faces) -> 0 <= f) ->
  let r := collapse lnk ord open faces in
  kept faces f -> ~ In f (folded_faces (cl_hf r)) ->
  exists p q, p <> q /\
    (exists b, nth_error (cl_bnd r) p = Some b /\ map_find Z.compare f b = Some true) /\
    (exists b, nth_error (cl_bnd r) q = Some b /\ map_find Z.compare f b = Some false) /\
    (forall c b, nth_error (cl_bnd r) c = Some b -> map_find Z.compare f b <> None -> c = p \/ c = q).
Proof.
  intros FP r HK HF. destruct (c20_every_side_in_one_cell lnk ord open faces FP) as (cell & _ & C2 & _ & C4 & C5 & _). fold r in C2, C4, C5.
  destruct (C2 f true HK) as [R1 _]. destruct (C2 f false HK) as [R2 _].
  assert (EX : forall z, 0 <= z < Z.of_nat (length (cl_bnd r)) -> exists b, nth_error (cl_bnd r) (Z.to_nat z) = Some b).
  { intros z Hz. destruct (nth_error (cl_bnd r) (Z.to_nat z)) eqn:E; [eauto|]. apply nth_error_None in E. lia. }
  destruct (EX _ R1) as [b1 E1]. destruct (EX _ R2) as [b2 E2].
  exists (Z.to_nat (cell f true)), (Z.to_nat (cell f false)). split; [|split; [|split]].
  - intros E. apply HF, C4. split; auto. lia.
  - exists b1. split; auto. rewrite (C5 f true _ _ HK HF E1). lia.
  - exists b2. split; auto. rewrite (C5 f false _ _ HK HF E2). lia.
  - intros c b Hb H. destruct (map_find Z.compare f b) as [[|]|] eqn:E; [left|right|congruence]; apply (C5 f _ c b HK HF Hb) in E; lia.
Qed.

(** C21: two sides share a cell iff a chain of dihedral steps joins them. A step goes from face f to the next face f' in the
    cyclic order around a (non-flap) edge, from f's side on (a,b) to f'’s side on (b,a). *)
Theorem c21_same_cell_iff_dihedrally_connected lnk ord open faces :
  (forall f, In f (map fst faces) -> 0 <= f) ->
  let r := collapse lnk ord open faces in let x := cc_build faces in
  forall f e s f' e' s', has_side faces f e s -> has_side faces f' e' s' ->
    (cell_id (cl_hf r) (f, e) = cell_id (cl_hf r) (f', e') <->
     dihedrally_connected ord open (cc_hf x) (cc_invalid x) (f, s) (f', s')).
Proof.
  intros FP r x f e s f' e' s' H H'. destruct (sides_ok lnk ord open faces FP) as (sc & S1 & _ & _ & _ & _ & S6). fold r in S1. fold x in S1, S6.
  destruct (S1 _ _ _ H) as [K E]. destruct (S1 _ _ _ H') as [K' E']. rewrite E, E', <- (S6 _ _ _ _ K K'). split; congruence.
Qed.
(** For plain faces the vocabulary reduces to the input: every face is kept, a side's half-faces are the loop edges (true) or their reverses (false). *)
Theorem c21_plain_faces_keep_their_edges faces : plain_faces faces ->
  cc_invalid (cc_build faces) = [] /\ (forall f, kept faces f <-> In f (map fst faces)) /\
  forall f a b, (has_side faces f (a, b) true <-> face_edge faces f (a, b)) /\ (has_side faces f (a, b) false <-> face_edge faces f (b, a)).
Proof.
  intros PF. destruct (build_plain faces PF) as (B1 & B2 & B3). split; auto. split; [exact B2|]. intros f a b. split; apply B3.
Qed.
(** On a closed consistently oriented surface, for every cyclic order, two sides share a cell iff they are on the same side of edge-connected faces. *)
Theorem c21_closed_surface_cells lnk ord open faces :
  (forall e fs, Permutation (ord e fs) fs) -> plain_faces faces -> closed_oriented faces ->
  let r := collapse lnk ord open faces in
  forall f e s f' e' s', has_side faces f e s -> has_side faces f' e' s' ->
    (cell_id (cl_hf r) (f, e) = cell_id (cl_hf r) (f', e') <-> s = s' /\ edge_connected faces f f').
Proof.
  intros OP PF CO r f e s f' e' s' H H'. assert (FP : forall f, In f (map fst faces) -> 0 <= f).
  { intros g Hg. apply in_map_iff in Hg as ([g' l] & E & Hg). simpl in E; subst. apply (proj2 PF _ _ Hg). }
  rewrite <- (manifold_conn ord open OP faces PF CO). apply c21_same_cell_iff_dihedrally_connected; auto.
Qed.
(** In particular a connected closed surface bounds exactly two cells: one with every face positive and one with every face negative. *)
Theorem c21_connected_closed_surface_two_cells lnk ord open faces :
  (forall e fs, Permutation (ord e fs) fs) -> plain_faces faces -> closed_oriented faces -> faces <> [] ->
  (forall f g, In f (map fst faces) -> In g (map fst faces) -> edge_connected faces f g) ->
  let r := collapse lnk ord open faces in
  length (cl_bnd r) = 2%nat /\ folded_faces (cl_hf r) = [] /\
  forall c b, nth_error (cl_bnd r) c = Some b -> exists s, forall f, In f (map fst faces) -> map_find Z.compare f b = Some s.
Proof.
  intros OP PF CO NE CN r. assert (FP : forall f, In f (map fst faces) -> 0 <= f).
  { intros g Hg. apply in_map_iff in Hg as ([g' l] & E & Hg). simpl in E; subst. apply (proj2 PF _ _ Hg). }
  destruct (build_plain faces PF) as (_ & B2 & _).
  destruct (sides_ok lnk ord open faces FP) as (sc & S1 & S2 & S3 & S4 & S5 & S6). fold r in S1, S2, S3, S4, S5.
  assert (SC : forall f s g t, In f (map fst faces) -> In g (map fst faces) -> sc f s = sc g t <-> s = t).
  { intros f s g t Hf Hg. rewrite S6 by (apply B2; auto). rewrite (manifold_conn ord open OP faces PF CO). split; [tauto|]. auto. }
  destruct faces as [|[f0 l0] fs]; [congruence|]. set (faces := (f0, l0) :: fs) in *. clearbody r.
  assert (I0 : In f0 (map fst faces)) by (simpl; auto).
  assert (NQ : sc f0 true <> sc f0 false) by (rewrite SC by auto; discriminate).
  assert (R1 := proj2 (S2 f0 true (proj2 (B2 f0) I0))). assert (R2 := proj2 (S2 f0 false (proj2 (B2 f0) I0))).
  assert (ALL : forall c, 0 <= c < Z.of_nat (length (cl_bnd r)) -> c = sc f0 true \/ c = sc f0 false).
  { intros c Hc. destruct (S3 c Hc) as (f & s & K & <-). apply B2 in K. destruct s; [left|right]; apply SC; auto. }
  split; [|split].
  - assert (A0 := ALL 0). assert (A1 := ALL 1). assert (A2 := ALL 2). lia.
  - destruct (folded_faces (cl_hf r)) as [|f l] eqn:E; auto. exfalso. assert (In f (folded_faces (cl_hf r))) by (rewrite E; simpl; auto).
    rewrite E in H. apply S5 in H as [K H]. apply B2 in K. apply SC in H; auto. discriminate.
  - intros c b Hb. assert (Hc : (c < length (cl_bnd r))%nat) by (apply nth_error_Some; congruence).
    destruct (ALL (Z.of_nat c)) as [E|E]; [lia|exists true|exists false]; intros f Hf.
    + destruct (S4 c b f true Hb) as (_ & B & _). apply B; [apply B2; auto|rewrite E; apply SC; auto|rewrite E, SC; auto; discriminate].
    + destruct (S4 c b f false Hb) as (_ & B & _). apply B; [apply B2; auto|rewrite E; apply SC; auto|rewrite E, SC; auto; discriminate].
Qed.

(** Concrete case: a tetrahedron. *)
Definition tetra : list (Z * list loop) := [(0, [[0; 1; 2]]); (1, [[0; 3; 1]]); (2, [[1; 3; 2]]); (3, [[0; 2; 3]])].
Definition tetra_edges : list (Z * edge) := flat_map (fun '(f, ls) => flat_map (fun C => map (pair f) (cyc_pairs C)) ls) tetra.
Lemma tetra_fe f e : face_edge tetra f e <-> In (f, e) tetra_edges.
Proof.
  unfold tetra_edges. rewrite in_flat_map. split.
  - intros (l & C & H & HC & N). exists (f, l). split; auto. apply in_flat_map. exists C. split; auto. apply in_map_iff. exists e. split; auto.
    destruct e; apply cyc_next_iff; auto.
  - intros ([g l] & H & HC). apply in_flat_map in HC as (C & HC & N). apply in_map_iff in N as (e' & [= -> ->] & N).
    exists l, C. split; auto. split; auto. destruct e; apply cyc_next_iff; auto.
Qed.
Example tetra_plain : plain_faces tetra.
Proof.
  split; [repeat constructor; simpl; lia|]. intros f l H. simpl in H. split; [|split; [|split]].
  - destruct H as [[= <- _]|[[= <- _]|[[= <- _]|[[= <- _]|[]]]]]; lia.
  - intros ->. destruct H as [[=]|[[=]|[[=]|[[=]|[]]]]].
  - intros C HC. destruct H as [[= _ <-]|[[= _ <-]|[[= _ <-]|[[= _ <-]|[]]]]]; destruct HC as [<-|[]]; (split; [repeat constructor; simpl; lia|simpl; lia]).
  - intros a b. rewrite !tetra_fe. unfold tetra_edges, tetra. cbn. intros A B.
    repeat (destruct A as [A|A]; [injection A as <- <- <-; repeat (destruct B as [B|B]; [discriminate B|]); destruct B|]). destruct A.
Qed.
Example tetra_closed : closed_oriented tetra.
Proof.
  split.
  - intros f g e. rewrite !tetra_fe. unfold tetra_edges, tetra. cbn. intros A B.
    repeat (destruct A as [A|A]; [injection A as <- <-; repeat (destruct B as [B|B]; [injection B; try discriminate; auto|]); try destruct B|]); auto; destruct A.
  - intros f a b H. assert (G : forallb (fun '(_, (u, v)) => existsb (fun '(_, (p, q)) => (p =? v) && (q =? u)) tetra_edges) tetra_edges = true) by reflexivity.
    rewrite forallb_forall in G. apply tetra_fe in H. specialize (G _ H). cbv beta iota in G. apply existsb_exists in G as ([g [p q]] & Hg & E).
    apply andb_true_iff in E as [E1 E2]. apply Z.eqb_eq in E1, E2. subst. exists g. apply tetra_fe. auto.
Qed.
Definition ex_ord (e : edge) (fs : list Z) : list Z := fs.
Definition ex_link (d : ds) (a b : Z) : bool := true.
Example tetra_cells : cl_bnd (collapse ex_link ex_ord false tetra) = [[(0, false); (1, false); (2, false); (3, false)]; [(0, true); (1, true); (2, true); (3, true)]]
  \/ cl_bnd (collapse ex_link ex_ord false tetra) = [[(0, true); (1, true); (2, true); (3, true)]; [(0, false); (1, false); (2, false); (3, false)]].
Proof. vm_compute. auto. Qed.
Example tetra_side : has_side tetra 2 (1, 3) true /\ has_side tetra 1 (1, 3) false.
Proof. split; vm_compute; eauto. Qed.
Example tetra_connected : edge_connected tetra 0 3.
Proof. apply rst_step. exists 2, 0. split; apply tetra_fe; vm_compute; tauto. Qed.

(** C22: every removal operation is the exact filter of its predicate: the result is the subsequence of cells that do not satisfy it. *)
Definition keeps_exactly {A} (P : A -> Prop) (cs rs : list A) : Prop :=
  exists b : list bool, length b = length cs /\ (forall i c, nth_error cs i = Some c -> (nth_error b i = Some true <-> P c)) /\
    rs = map snd (filter (fun p => fst p) (combine b cs)).
Lemma filter_keeps A (p : A -> bool) (P : A -> Prop) cs : (forall c, p c = true <-> P c) -> keeps_exactly P cs (filter p cs).
Proof.
  intros H. exists (map p cs). split; [apply map_length|]. split.
  - intros i c E. rewrite (map_nth_error _ _ _ E). rewrite <- H. split; congruence.
  - induction cs as [|c cs IH]; simpl; auto. destruct (p c); simpl; congruence.
Qed.
Lemma negb_forallb_iff A (q : A -> bool) l : negb (forallb q l) = true <-> exists y, In y l /\ q y = false.
Proof.
  rewrite negb_true_iff. induction l as [|y l IH]; simpl; [split; [discriminate|intros (? & [] & _)]|].
  rewrite andb_false_iff, IH. split.
  - intros [H|(z & H & E)]; eauto.
  - intros (z & [->|H] & E); eauto.
Qed.
Theorem c22_remove_from_faces bf cs : keeps_exactly (fun m : cellb => exists f s, In (f, s) m /\ ~ In f bf) cs (remove_from_faces bf cs).
Proof.
  apply filter_keeps. intros m. rewrite negb_forallb_iff. split.
  - intros ([f s] & H & E). exists f, s. split; auto. rewrite <- mem_z_In. congruence.
  - intros (f & s & H & E). exists (f, s). split; auto. apply not_true_iff_false. rewrite mem_z_In. auto.
Qed.
Theorem c22_remove_from_vertices faces bv cs :
  NoDup (map fst faces) ->
  keeps_exactly (fun m : cellb => exists f s, In (f, s) m /\ ~ exists ls, In (f, ls) faces /\ forall C v, In C ls -> In v C -> In v bv)
    cs (remove_from_vertices faces bv cs).
Proof.
  intros ND. apply filter_keeps. intros m. rewrite negb_forallb_iff.
  set (S := set_of_list _ _).
  assert (HS : forall f, In f S <-> exists ls, In (f, ls) faces /\ forall C v, In C ls -> In v C -> In v bv).
  { intros f. unfold S. rewrite (set_of_list_In Zcompare_total), in_map_iff. split.
    - intros ([g ls] & E & H). simpl in E; subst g. apply filter_In in H as [H G]. exists ls. split; auto. intros C v HC Hv.
      rewrite forallb_forall in G. specialize (G C HC). rewrite forallb_forall in G. apply mem_z_In; auto.
    - intros (ls & H & G). exists (f, ls). split; auto. apply filter_In. split; auto. apply forallb_forall. intros C HC.
      apply forallb_forall. intros v Hv. apply mem_z_In. eauto. }
  split.
  - intros ([f s] & H & E). exists f, s. split; auto. rewrite <- HS, <- mem_z_In. congruence.
  - intros (f & s & H & E). exists (f, s). split; auto. apply not_true_iff_false. rewrite mem_z_In, HS. auto.
Qed.
Theorem c22_remove_boundary_cells ext cs : keeps_exactly (fun m : cellb => exists f s, In (f, s) m /\ ext f = false) cs (remove_boundary_cells ext cs).
Proof.
  apply filter_keeps. intros m. rewrite negb_forallb_iff. split.
  - intros ([f s] & H & E). eauto.
  - intros (f & s & H & E). exists (f, s). auto.
Qed.
(** a face lies on the boundary of the grid: bound on exactly one axis, at plane 0 or at the last plane *)
Definition grid_bdry_face (shape : list Z) (mask : Z -> list (nat * Z)) (f : Z) : Prop :=
  exists axis v, mask f = [(axis, v)] /\ (v = 0 \/ nth_error shape axis = Some v).
Theorem c22_remove_grid_boundary_cells shape mask cs :
  keeps_exactly (fun m : cellb => exists f s, In (f, s) m /\ ~ grid_bdry_face shape mask f) cs (remove_grid_boundary_cells shape mask cs).
Proof.
  assert (G : forall f, on_grid_boundary shape (mask f) = true <-> grid_bdry_face shape mask f).
  { intros f. unfold grid_bdry_face. destruct (mask f) as [|[a v] [|]]; simpl.
    - split; [discriminate|intros (? & ? & ? & _); discriminate].
    - rewrite orb_true_iff, Z.eqb_eq. split.
      + intros [->|H]; [exists a, 0; auto|]. destruct (nth_error shape a) as [s|] eqn:E; [|discriminate]. apply Z.eqb_eq in H. subst. exists a, s. auto.
      + intros (a' & v' & [= <- <-] & [->|H]); auto. right. rewrite H. apply Z.eqb_refl.
    - split; [discriminate|intros (? & ? & ? & _); discriminate]. }
  apply filter_keeps. intros m. rewrite negb_forallb_iff. split.
  - intros ([f s] & H & E). exists f, s. split; auto. rewrite <- G. congruence.
  - intros (f & s & H & E). exists (f, s). split; auto. apply not_true_iff_false. rewrite G. auto.
Qed.
(** the signed sum of the face volumes of a cell *)
Fixpoint signed_sum (vol : Z -> Qc) (m : cellb) : Qc :=
  match m with [] => 0%Qc | (f, b) :: t => ((if b then vol f else - vol f) + signed_sum vol t)%Qc end.
Theorem c22_remove_by_volume vol cs : keeps_exactly (fun m : cellb => ~ (signed_sum vol m < 0)%Qc) cs (remove_by_volume vol cs).
Proof.
  assert (G : forall m a, fold_left (fun (v : Qc) (fb : Z * bool) => let (f, b) := fb in (v + (if b then 1 else - (1)) * vol f)%Qc) m a = (a + signed_sum vol m)%Qc).
  { induction m as [|[f b] m IH]; intros a; cbn [fold_left signed_sum]; [ring|]. rewrite IH. destruct b; ring. }
  apply filter_keeps. intros m. unfold cell_vol. rewrite G, Qcplus_0_l, negb_true_iff, <- not_true_iff_false, qltb_lt. tauto.
Qed.
Example c22_nonvacuous : remove_from_faces [0; 1; 2; 3] [[(0, true); (1, false)]; [(4, true); (0, true)]; [(3, true)]] = [[(4, true); (0, true)]]
  /\ remove_grid_boundary_cells [3; 3; 3] (fun f => if f =? 0 then [(0%nat, 3)] else [(1%nat, 1)]) [[(0, true)]; [(0, true); (1, false)]] = [[(0, true); (1, false)]]
  /\ remove_by_volume (fun f => if f =? 0 then 1 else 1 + 1)%Qc [[(0, true); (1, false)]; [(0, false); (1, true)]] = [[(0, false); (1, true)]].
Proof. vm_compute. auto. Qed.

(** C53: cleaning a face's boundary. The edge set treated as spurs is shared by all faces, so a spur of one face cuts the loops of the others,
    and following the missing successor inserts vertex 0. *)
Definition loop_edges_from_input (faces : list (Z * list loop)) : Prop :=
  forall f ls C a b, map_find Z.compare f (cc_faces (cc_build faces)) = Some ls -> In C ls -> cyc_next C a b -> face_edge faces f (a, b).
Theorem c53_kept_loops_use_input_edges_refuted :
  ~ (forall faces, NoDup (map fst faces) -> (forall f ls C v, In (f, ls) faces -> In C ls -> In v C -> 0 <= f /\ 0 <= v) -> loop_edges_from_input faces).
Proof.
  intros H. specialize (H [(0, [[1; 2; 3; 2; 4]]); (1, [[2; 3; 5; 6]])]).
  assert (X := H ltac:(repeat constructor; simpl; lia)). clear H.
  assert (Y : loop_edges_from_input [(0, [[1; 2; 3; 2; 4]]); (1, [[2; 3; 5; 6]])]).
  { apply X. intros f ls C v H HC Hv. simpl in H. destruct H as [[= <- <-]|[[= <- <-]|[]]]; destruct HC as [<-|[]]; simpl in Hv; lia. }
  unfold loop_edges_from_input in Y.
  assert (Z0 : face_edge [(0, [[1; 2; 3; 2; 4]]); (1, [[2; 3; 5; 6]])] 1 (2, 0)).
  { eapply (Y 1 [[3; 5; 6; 2; 0]] [3; 5; 6; 2; 0]); [reflexivity|simpl; auto|]. exists 3%nat. auto. }
  destruct Z0 as (ls & C & Hin & HC & N). apply cyc_next_iff in N. simpl in Hin.
  destruct Hin as [[= ]|[[= <-]|[]]]. destruct HC as [<-|[]]. simpl in N. intuition discriminate.
Qed.
Theorem c53_plain_loops_unchanged_partial faces f ls : plain_faces faces -> In (f, ls) faces ->
  exists ls', map_find Z.compare f (cc_faces (cc_build faces)) = Some ls' /\ forall C, In C ls' <-> In C ls.
Proof. exact (plain_kept faces f ls). Qed.
