(** C41, C42: volumes and moments of cut cells.  Exact rational arithmetic. *)
From Coq Require Import Permutation.
From Verif Require Import Base Num SmallestEdge AdaptiveGrid FaceCollapser Mesh Volume VolumeProofs.
Set Implicit Arguments.
Local Open Scope Qc_scope.
Local Arguments Qcplus : simpl never. Local Arguments Qcmult : simpl never. Local Arguments Qcopp : simpl never. Local Arguments Qcminus : simpl never.
Local Arguments Qcdiv : simpl never. Local Arguments Qcinv : simpl never. Local Arguments Q2Qc : simpl never.

(** sum of a list of numbers, written out *)
Definition total (l : list Qc) : Qc := fold_right Qcplus 0 l.
Lemma Some_inj (A : Type) (x y : A) : Some x = Some y -> x = y.
Proof. congruence. Qed.
Lemma total_qsum (A : Type) (f : A -> Qc) l : total (map f l) = qsum f l.
Proof. unfold total. induction l as [|a l IH]; cbn; congruence. Qed.
Lemma seq_length (A : Type) (l : list (option A)) r : sequence l = Some r -> length r = length l /\ forall i, nth_error l i = option_map Some (nth_error r i).
Proof.
  revert r. induction l as [|[x|] l IH]; cbn; intros r H; try discriminate.
  - apply Some_inj in H. subst. split; auto. intros [|]; auto.
  - destruct (sequence l) as [r'|]; try discriminate. cbn in H. apply Some_inj in H. subst. destruct (IH _ eq_refl) as [L E]. cbn. split; [lia|].
    intros [|i]; cbn; auto.
Qed.
Lemma volumes_some V faces cells r : cut_cell_volumes V faces cells = Some r ->
  Forall (Forall (fun l => (2 <= length l)%nat)) faces /\ r = map (fun c => qsum (signed (fun f => nth (Z.to_nat f) (map (face_vol V) faces) 0)) c) cells.
Proof.
  unfold cut_cell_volumes. intros H. destruct (sequence (map (brep_volume V) faces)) as [fv|] eqn:S; try discriminate. cbn in H. apply Some_inj in H. subst.
  assert (L : Forall (Forall (fun l => (2 <= length l)%nat)) faces /\ fv = map (face_vol V) faces).
  { revert fv S. induction faces as [|f fs IH]; cbn; intros fv S; [apply Some_inj in S; subst; auto|].
    destruct (brep_volume V f) as [x|] eqn:B; try discriminate. destruct (sequence (map (brep_volume V) fs)) as [r|]; try discriminate. cbn in S. apply Some_inj in S. subst.
    destruct (IH _ eq_refl) as [A ->]. assert (F : Forall (fun l => (2 <= length l)%nat) f).
    { apply Forall_forall. intros l Hl. destruct (le_lt_dec 2 (length l)); auto. rewrite (brep_none V f l Hl) in B by lia. discriminate. }
    split; [constructor; auto|]. rewrite brep_sum in B by auto. apply Some_inj in B. subst. auto. }
  destruct L as [F ->]. split; auto. apply map_ext. intros c. apply cell_volume_sum.
Qed.
Lemma volumes_ok V faces cells : Forall (Forall (fun l => (2 <= length l)%nat)) faces ->
  cut_cell_volumes V faces cells = Some (map (fun c => qsum (signed (fun f => nth (Z.to_nat f) (map (face_vol V) faces) 0)) c) cells).
Proof.
  intros H. unfold cut_cell_volumes. assert (S : sequence (map (brep_volume V) faces) = Some (map (face_vol V) faces)).
  { induction H as [|f fs Hf Hfs IH]; cbn; auto. rewrite brep_sum, IH by auto. auto. }
  rewrite S. cbn. f_equal. apply map_ext. intros c. apply cell_volume_sum.
Qed.
Lemma qsum_concat (A : Type) (f : A -> Qc) ll : qsum (fun l => qsum f l) ll = qsum f (concat ll).
Proof. induction ll as [|l ll IH]; cbn; auto. rewrite qsum_app. congruence. Qed.

(** Cells are defined (no undefined access) exactly when every loop of every face has at least two vertices. *)
Theorem c41_defined V faces cells : cut_cell_volumes V faces cells <> None <-> (forall f l, In f faces -> In l f -> (2 <= length l)%nat).
Proof.
  split.
  - intros H f l Hf Hl. destruct (cut_cell_volumes V faces cells) eqn:E; [|congruence]. apply volumes_some in E as [F _].
    rewrite Forall_forall in F. specialize (F _ Hf). rewrite Forall_forall in F. auto.
  - intros H. rewrite volumes_ok; [discriminate|]. apply Forall_forall. intros f Hf. apply Forall_forall. intros l Hl. eauto.
Qed.

(** Gluing: when the sides used by all cells are two opposite sides of every inner face plus the sides [bnd], the volumes of the cells add up to
    the volume enclosed by [bnd]. *)
Theorem c41_glue V faces cells inner bnd r b : Permutation (concat cells) (flat_map (fun f => [(f, true); (f, false)]) inner ++ bnd) ->
  cut_cell_volumes V faces cells = Some r -> cut_cell_volumes V faces [bnd] = Some [b] -> total r = b.
Proof.
  intros P Hr Hb. apply volumes_some in Hr as [_ ->]. apply volumes_some in Hb as [_ Hb]. cbn [map] in Hb. assert (Eb := f_equal (fun l => hd 0 l) Hb). cbn [hd] in Eb. rewrite Eb. clear Hb Eb.
  rewrite total_qsum, qsum_concat, (qsum_perm _ P), qsum_app, qsum_flat.
  rewrite (@qsum_ext _ _ (fun _ => 0) inner); [|intros f _; unfold signed; cbn; ring].
  assert (Z0 : qsum (fun _ : Z => 0) inner = 0) by (clear; induction inner as [|x l IH]; cbn; [auto|rewrite IH; ring]).
  rewrite Z0. ring.
Qed.
(** Every face used once with each sign: the volumes sum to zero. *)
Theorem c41_sum_zero V faces cells fs r : Permutation (concat cells) (flat_map (fun f => [(f, true); (f, false)]) fs) ->
  cut_cell_volumes V faces cells = Some r -> total r = 0.
Proof.
  intros P H. assert (B : cut_cell_volumes V faces [[]] = Some [0]) by (apply volumes_some in H as [F _]; rewrite volumes_ok by auto; auto).
  apply (c41_glue V faces cells fs []) with (r := r) (b := 0); auto. rewrite app_nil_r. auto.
Qed.
Theorem c41_flip V faces cells r : cut_cell_volumes V faces cells = Some r ->
  cut_cell_volumes V faces (map (map (fun '(f, s) => (f, negb s))) cells) = Some (map Qcopp r).
Proof.
  intros H. apply volumes_some in H as [F ->]. rewrite volumes_ok by auto. f_equal. rewrite !map_map. apply map_ext. intros c.
  rewrite qsum_map, <- qsum_opp. apply qsum_ext. intros [f s] _. unfold signed. destruct s; cbn; ring.
Qed.

(** directed boundary edges of a side of a face: the loop edges, reversed for the negative side *)
Definition boundary_of_side (faces : list (list (list Z))) (x : Z * bool) : list edge :=
  let es := flat_map (fun l => match l with [] => [] | a :: t => combine l (t ++ [a]) end) (nth (Z.to_nat (fst x)) faces []) in
  if snd x then es else map (fun '(a, b) => (b, a)) es.
(** the cell is closed: every directed edge is matched by its opposite, with multiplicity *)
Definition closed_cell (faces : list (list (list Z))) (c : list (Z * bool)) : Prop :=
  let E := flat_map (boundary_of_side faces) c in Permutation E (map (fun '(a, b) => (b, a)) E).
Lemma nth_face_vol V faces n : nth n (map (face_vol V) faces) 0 = face_vol V (nth n faces []).
Proof. change 0 with (face_vol V []). apply map_nth. Qed.
Lemma swap_map (l : list edge) : map (fun '(a, b) => (b, a)) l = map swap_edge l.
Proof. apply map_ext. intros [a b]. auto. Qed.
Lemma closed_side faces c : closed_cell faces c -> let loops := fun f => nth (Z.to_nat f) faces [] in
  Permutation (flat_map (side_edges loops) c) (map swap_edge (flat_map (side_edges loops) c)).
Proof.
  unfold closed_cell. cbn zeta. rewrite (flat_map_ext (boundary_of_side faces) (side_edges (fun f => nth (Z.to_nat f) faces []))).
  - rewrite swap_map. auto.
  - intros [f s]. unfold boundary_of_side, side_edges. cbn [fst snd]. fold (@pcyc Z). destruct s; auto. apply swap_map.
Qed.
Theorem c41_translate V t faces cells : Forall (closed_cell faces) cells ->
  cut_cell_volumes (fun i => vadd (V i) t) faces cells = cut_cell_volumes V faces cells.
Proof.
  intros C. destruct (cut_cell_volumes V faces cells) eqn:E.
  - apply volumes_some in E as [F ->]. rewrite volumes_ok by auto. f_equal. apply map_ext_in. intros c Hc. rewrite Forall_forall in C. specialize (C c Hc).
    assert (T := @cell_translate V t (fun f => nth (Z.to_nat f) faces []) c (closed_side C)).
    erewrite qsum_ext, T.
    + apply qsum_ext. intros [f s] _. unfold signed. cbn [fst snd]. rewrite nth_face_vol. auto.
    + intros [f s] _. unfold signed. cbn [fst snd]. rewrite nth_face_vol. auto.
  - destruct (cut_cell_volumes (fun i => vadd (V i) t) faces cells) eqn:E'; auto. apply volumes_some in E' as [F _]. rewrite volumes_ok in E by auto. discriminate.
Qed.
(** Linear maps (stretching by dx included) multiply every volume by the determinant. *)
Definition lin (a b c : q3) (p : q3) : q3 := let '(x, y, z) := p in vadd (vscale x a) (vadd (vscale y b) (vscale z c)).
Lemma tet_lin a b c p q r : tet0 (lin a b c p) (lin a b c q) (lin a b c r) = dot a (cross b c) * tet0 p q r.
Proof. unfold tet0, lin. vec. field. exact q6_neq. Qed.
Lemma fan_lin a b c p0 rest : forall p1, fan (lin a b c p0) (lin a b c p1) (map (lin a b c) rest) = dot a (cross b c) * fan p0 p1 rest.
Proof. induction rest as [|p2 rest IH]; intros p1; cbn [fan map]; [ring|]. rewrite IH, tet_lin. ring. Qed.
Lemma face_lin a b c V loops : face_vol (fun i => lin a b c (V i)) loops = dot a (cross b c) * face_vol V loops.
Proof.
  unfold face_vol. rewrite <- qsum_scale. apply qsum_ext. intros [|i0 [|i1 l]] _; cbn [loop_vol]; try ring. rewrite <- fan_lin, map_map. auto.
Qed.
Theorem c41_linear V a b c faces cells r : cut_cell_volumes V faces cells = Some r ->
  cut_cell_volumes (fun i => lin a b c (V i)) faces cells = Some (map (Qcmult (dot a (cross b c))) r).
Proof.
  intros H. apply volumes_some in H as [F ->]. rewrite volumes_ok by auto. f_equal. rewrite map_map. apply map_ext. intros k. rewrite <- qsum_scale.
  apply qsum_ext. intros [f s] _. unfold signed. cbn [fst snd]. rewrite !nth_face_vol, face_lin. destruct s; ring.
Qed.
(** A planar loop: the value does not depend on which vertex the loop starts at, and reversing the loop negates it. *)
Theorem c41_planar_loop V l k v : planar V (l ++ k) -> brep_volume V [l ++ k] = Some v ->
  brep_volume V [k ++ l] = Some v /\ brep_volume V [rev (l ++ k)] = Some (- v).
Proof.
  intros P H. assert (L : (2 <= length (l ++ k))%nat).
  { destruct (le_lt_dec 2 (length (l ++ k))); auto. rewrite (brep_none V [l ++ k] (l ++ k)) in H; cbn; auto. discriminate. }
  assert (F : forall m, (2 <= length m)%nat -> Forall (fun x : list Z => (2 <= length x)%nat) [m]) by (repeat constructor; auto).
  rewrite brep_sum in H by auto. apply Some_inj in H. cbn in H. rewrite !brep_sum; [|apply F; rewrite rev_length; auto|apply F; rewrite app_length in *; lia].
  cbn. rewrite planar_rot, planar_rev by auto. subst v. split; f_equal; ring.
Qed.
(** The eight corners of a grid cell and its six faces seen from outside: the volume is the product of the side lengths, wherever the box is. *)
Definition corner (o d : q3) (i : Z) : q3 :=
  let '(x, y, z) := o in let '(u, v, w) := d in
  (x + (if Z.testbit i 2 then u else 0), y + (if Z.testbit i 1 then v else 0), z + (if Z.testbit i 0 then w else 0)).
Definition box_faces : list (list (list Z)) :=
  [[[0; 1; 3; 2]]; [[4; 6; 7; 5]]; [[0; 4; 5; 1]]; [[2; 3; 7; 6]]; [[0; 2; 6; 4]]; [[1; 5; 7; 3]]]%Z.
Definition box_cell : list (Z * bool) := [(0, true); (1, true); (2, true); (3, true); (4, true); (5, true)]%Z.
Theorem c41_box o x y z : cut_cell_volumes (corner o (x, y, z)) box_faces [box_cell] = Some [x * y * z].
Proof.
  rewrite volumes_ok by (repeat constructor). f_equal. cbn [map]. f_equal. destruct o as [[a b] c].
  unfold box_cell. cbn [qsum]. unfold signed. cbn [fst snd]. rewrite !nth_face_vol. unfold face_vol, box_faces. cbv [Z.to_nat Pos.to_nat Pos.iter_op Nat.add]. cbn. unfold tet0, dot, cross. assert (K : q6 = 1 + 1 + 1 + 1 + 1 + 1) by (apply Qc_is_canon; reflexivity).
  assert (N := q6_neq). rewrite K in *. field. exact N.
Qed.
Theorem c41_tetrahedron a b c d : cut_cell_volumes (fun i => nth (Z.to_nat i) [a; b; c; d] vzero) [[[0; 2; 1]]; [[0; 1; 3]]; [[0; 3; 2]]; [[1; 2; 3]]]%Z [[(0, true); (1, true); (2, true); (3, true)]%Z]
  = Some [dot (vadd b (vneg a)) (cross (vadd c (vneg a)) (vadd d (vneg a))) / q6].
Proof.
  rewrite volumes_ok by (repeat constructor). f_equal. cbn [map]. f_equal.
  cbn [qsum]. unfold signed. cbn [fst snd]. unfold face_vol. cbv [Z.to_nat Pos.to_nat Pos.iter_op Nat.add]. cbn. cbv [Z.to_nat Pos.to_nat Pos.iter_op Nat.add]. cbn. unfold tet0. vec. field. exact q6_neq.
Qed.
(** non-vacuity: the unit box is closed; two tetrahedra sharing a face *)
Example c41_box_closed : closed_cell box_faces box_cell.
Proof.
  unfold closed_cell. cbn. cbv [Z.to_nat Pos.to_nat Pos.iter_op Nat.add boundary_of_side fst snd nth]. cbn. repeat match goal with |- Permutation (?a :: _) ?l => 
    let rec go pre l := match l with a :: ?post => apply (Permutation_cons_app pre post a) | ?x :: ?post => let pre' := constr:(pre ++ [x]) in let p := eval cbn in pre' in go p post end in go (@nil edge) l; cbn end.
  constructor.
Qed.
Example c41_two_tets : exists V faces cells inner bnd, Permutation (concat cells) (flat_map (fun f => [(f, true); (f, false)]) inner ++ bnd) /\
  Forall (closed_cell faces) cells /\ cut_cell_volumes V faces cells = Some [/ q6; / q6] /\ cut_cell_volumes V faces [bnd] = Some [/ q6 + / q6].
Proof.
  exists (fun i => nth (Z.to_nat i) [(0, 0, 0); (1, 0, 0); (0, 1, 0); (0, 0, 1); (0, 0, - (1))] vzero).
  exists [[[0; 1; 2]]; [[0; 1; 3]]; [[0; 3; 2]]; [[1; 2; 3]]; [[0; 4; 1]]; [[0; 2; 4]]; [[1; 4; 2]]]%Z.
  exists [[(0, false); (1, true); (2, true); (3, true)]; [(0, true); (4, true); (5, true); (6, true)]]%Z, [0]%Z, [(1, true); (2, true); (3, true); (4, true); (5, true); (6, true)]%Z.
  split; [|split; [|split]].
  - cbn. apply (perm_trans (l' := [(0, false); (0, true); (1, true); (2, true); (3, true); (4, true); (5, true); (6, true)]%Z)); [apply perm_skip|apply perm_swap].
    apply Permutation_sym. apply (Permutation_cons_app [(1, true); (2, true); (3, true)]%Z). apply Permutation_refl.
  - repeat constructor; unfold closed_cell; cbn; cbv [Z.to_nat Pos.to_nat Pos.iter_op Nat.add boundary_of_side fst snd nth]; cbn; repeat match goal with |- Permutation (?a :: _) ?l => 
    let rec go pre l := match l with a :: ?post => apply (Permutation_cons_app pre post a) | ?x :: ?post => let pre' := constr:(pre ++ [x]) in let p := eval cbn in pre' in go p post end in go (@nil edge) l; cbn end; constructor.
  - rewrite volumes_ok by (repeat constructor). f_equal.
  - rewrite volumes_ok by (repeat constructor). f_equal.
    cbn [map qsum]. unfold signed. cbn [fst snd]. unfold face_vol. cbv [Z.to_nat Pos.to_nat Pos.iter_op Nat.add]. cbn. cbv [Z.to_nat Pos.to_nat Pos.iter_op Nat.add]. cbn. unfold tet0, dot, cross. f_equal; field; exact q6_neq.
Qed.

(** ** C42 *)
Lemma vadd_comm a b : vadd a b = vadd b a. Proof. vec. f_equal; [f_equal|]; ring. Qed.
Lemma vadd_assoc a b c : vadd a (vadd b c) = vadd (vadd a b) c. Proof. vec. f_equal; [f_equal|]; ring. Qed.
Lemma vadd_0 a : vadd vzero a = a. Proof. vec. f_equal; [f_equal|]; ring. Qed.
Definition vsumr (l : list q3) : q3 := fold_right vadd vzero l.
Lemma vsum_r l : vsum l = vsumr l.
Proof.
  unfold vsum. assert (G : forall l a, fold_left vadd l a = vadd a (vsumr l)).
  { induction l0 as [|x l0 IH]; intros a; cbn; [rewrite vadd_comm, vadd_0; auto|]. rewrite IH, vadd_assoc. auto. }
  rewrite G. apply vadd_0.
Qed.
Lemma vsumr_perm l l' : Permutation l l' -> vsumr l = vsumr l'.
Proof. unfold vsumr. induction 1; cbn; try congruence. rewrite !vadd_assoc, (vadd_comm y x). auto. Qed.
Lemma mean_perm l l' : Permutation l l' -> mean l = mean l'.
Proof.
  intros P. unfold mean. rewrite !vsum_r, (vsumr_perm P), (Permutation_length P). destruct l, l'; auto.
  - apply Permutation_nil in P. discriminate.
  - apply Permutation_sym, Permutation_nil in P. discriminate.
Qed.
Lemma centroid_mean V loops : brep_centroid V loops = mean (map V (concat loops)). Proof. reflexivity. Qed.
Lemma seq_perm (A : Type) (l l' : list (option A)) : Permutation l l' -> match sequence l, sequence l' with Some a, Some b => Permutation a b | None, None => True | _, _ => False end.
Proof.
  induction 1 as [|x l l' P IH|x y l|l l' l'' P IH P' IH']; cbn; auto.
  - destruct x; auto. destruct (sequence l), (sequence l'); cbn; auto.
  - destruct x, y; cbn; auto; destruct (sequence l); cbn; auto. constructor.
  - destruct (sequence l), (sequence l'), (sequence l''); try easy. eapply perm_trans; eauto.
Qed.
Definition same_vertices (f f' : list (list Z)) : Prop := Permutation (concat f) (concat f').
(** The same cell described with other orientations: faces whose loops are rotated, reversed or reordered, face sides flipped, faces listed in any order. *)
Theorem c42_orientation V faces faces' c c' : Forall2 same_vertices faces faces' -> Permutation (map fst c) (map fst c') ->
  cell_centroid V faces c = cell_centroid V faces' c'.
Proof.
  intros F P. unfold cell_centroid.
  set (g := fun (fs : list (list (list Z))) (f : Z) => if (f <? 0)%Z then None else match nth_error fs (Z.to_nat f) with Some ls => brep_centroid V ls | None => None end).
  assert (G : forall fs (d : list (Z * bool)), map (fun '(f, _) => if (f <? 0)%Z then None else match nth_error fs (Z.to_nat f) with Some ls => brep_centroid V ls | None => None end) d = map (g fs) (map fst d)).
  { intros. rewrite map_map. apply map_ext. intros [f s]. auto. }
  rewrite !G. assert (E : forall f, g faces f = g faces' f).
  { intros f. unfold g. destruct (f <? 0)%Z; auto. generalize (Z.to_nat f). clear - F. induction F as [|x y l l' S F IH]; intros [|n]; cbn; auto.
    rewrite !centroid_mean. apply mean_perm, Permutation_map, S. }
  rewrite (map_ext _ _ E). assert (H := seq_perm (Permutation_map (g faces') P)).
  destruct (sequence (map (g faces') (map fst c))), (sequence (map (g faces') (map fst c'))); try easy. apply mean_perm. auto.
Qed.
Lemma Z2Qc_succ_neq n : Z2Qc (Z.of_nat (S n)) <> 0.
Proof. intros H. assert (E : Z2Qc (Z.of_nat (S n)) = Z2Qc 0) by (rewrite H; apply Qc_is_canon; reflexivity). apply Z2Qc_inj in E. lia. Qed.
Lemma Z2Qc_S n : Z2Qc (Z.of_nat (S n)) = 1 + Z2Qc (Z.of_nat n).
Proof. rewrite Nat2Z.inj_succ. unfold Z.succ. rewrite Z2Qc_plus, Z2Qc_1. apply Qcplus_comm. Qed.
(** affine maps act on the centroid as on the points *)
Definition aff (a b c t : q3) (p : q3) : q3 := vadd (lin a b c p) t.
Lemma vsumr_aff a b c t l : vsumr (map (aff a b c t) l) = vadd (lin a b c (vsumr l)) (vscale (Z2Qc (Z.of_nat (length l))) t).
Proof.
  unfold vsumr. induction l as [|p l IH]; [cbn; change (Z.of_nat 0) with 0%Z; rewrite Z2Qc_0; unfold lin; vec; repeat apply f_equal2; ring|]. cbn [map fold_right length]. rewrite IH, Z2Qc_S. generalize (fold_right vadd vzero l). intros s.
  unfold aff, lin. vec. f_equal; [f_equal|]; ring.
Qed.
Lemma mean_aff a b c t l : mean (map (aff a b c t) l) = option_map (aff a b c t) (mean l).
Proof.
  unfold mean. destruct l as [|p l]; auto. cbn [map option_map]. f_equal. change (aff a b c t p :: map (aff a b c t) l) with (map (aff a b c t) (p :: l)).
  rewrite !vsum_r, vsumr_aff, map_length. generalize (vsumr (p :: l)). intros s. assert (N := @Z2Qc_succ_neq (length l)). cbn [length]. generalize dependent (Z2Qc (Z.of_nat (S (length l)))). intros n N.
  unfold aff, lin. vec. f_equal; [f_equal|]; field; auto.
Qed.
Lemma seq_map (A B : Type) (f : A -> B) l : sequence (map (option_map f) l) = option_map (map f) (sequence l).
Proof. induction l as [|[x|] l IH]; cbn; auto. rewrite IH. destruct (sequence l); auto. Qed.
Theorem c42_affine V a b c t faces k : cell_centroid (fun i => aff a b c t (V i)) faces k = option_map (aff a b c t) (cell_centroid V faces k).
Proof.
  unfold cell_centroid. rewrite (@map_ext _ _ _ (fun x : Z * bool => option_map (aff a b c t) ((fun '(f, _) => if (f <? 0)%Z then None else match nth_error faces (Z.to_nat f) with Some ls => brep_centroid V ls | None => None end) x))).
  - rewrite <- (map_map _ (option_map (aff a b c t))), seq_map. destruct (sequence _) as [cs|]; cbn [option_map]; auto. apply mean_aff.
  - intros [f s]. destruct (f <? 0)%Z; auto. destruct (nth_error faces (Z.to_nat f)); auto. rewrite !centroid_mean. rewrite <- mean_aff, map_map. auto.
Qed.
(** The centroid lies in every half space that contains the vertices of the faces of the cell: it is in their convex hull. *)
Lemma dot_vsumr n l k : Forall (fun p => dot n p <= k) l -> dot n (vsumr l) <= Z2Qc (Z.of_nat (length l)) * k.
Proof.
  induction 1 as [|p l Hp Hl IH].
  - cbn [vsumr fold_right length]. change (Z.of_nat 0) with 0%Z. rewrite Z2Qc_0. assert (E : dot n vzero = 0 * k) by (vec; ring). rewrite E. apply Qcle_refl.
  - cbn [vsumr fold_right length]. fold (vsumr l). rewrite Z2Qc_S. assert (E : dot n (vadd p (vsumr l)) = dot n p + dot n (vsumr l)) by (generalize (vsumr l); intros s; clear; vec; ring). rewrite E.
    rewrite Qcmult_plus_distr_l, Qcmult_1_l. apply Qcplus_le_compat; auto.
Qed.
Lemma mean_dot n l k m : mean l = Some m -> Forall (fun p => dot n p <= k) l -> dot n m <= k.
Proof.
  unfold mean. destruct l as [|p l]; [discriminate|]. intros H F. apply Some_inj in H. apply dot_vsumr in F. rewrite <- vsum_r in F.
  assert (N := @Z2Qc_succ_neq (length l)). cbn [length] in *. set (c := Z2Qc (Z.of_nat (S (length l)))) in *. set (s := vsum (p :: l)) in *. clearbody s.
  assert (P : 0 < c) by (unfold c; rewrite <- Z2Qc_0; apply Z2Qc_lt; lia).
  assert (E : dot n m = / c * dot n s) by (rewrite <- H; clear; vec; ring). rewrite E. clearbody c.
  apply Qcmult_lt_0_le_reg_r with (z := c); auto. assert (E' : / c * dot n s * c = dot n s) by (field; auto). rewrite E'. rewrite Qcmult_comm. auto.
Qed.
Theorem c42_convex V faces c m n k : cell_centroid V faces c = Some m ->
  (forall f s ls l i, In (f, s) c -> nth_error faces (Z.to_nat f) = Some ls -> In l ls -> In i l -> dot n (V i) <= k) -> dot n m <= k.
Proof.
  unfold cell_centroid. intros H B. destruct (sequence _) as [cs|] eqn:S; [|discriminate]. apply mean_dot with (l := cs); auto. clear H.
  revert cs S. induction c as [|[f s] c IH]; intros cs S; [cbn in S; apply Some_inj in S; subst; auto|].
  cbn [map sequence] in S. destruct (if (f <? 0)%Z then None else _) as [p|] eqn:Fp; [|discriminate]. destruct (sequence _) as [cs'|] eqn:S'; [|discriminate]. cbn in S. apply Some_inj in S. subst cs.
  constructor; [|apply IH; auto; intros; eapply B; eauto; cbn; eauto]. destruct (f <? 0)%Z; [discriminate|]. destruct (nth_error faces (Z.to_nat f)) as [ls|] eqn:N; [|discriminate].
  rewrite centroid_mean in Fp. apply mean_dot with (l := map V (concat ls)); auto. apply Forall_forall. intros q Hq. apply in_map_iff in Hq as (i & <- & Hi). apply in_concat in Hi as (l & Hl & Hi).
  eapply B; eauto. cbn. eauto.
Qed.
(** An uncut box: the centre. *)
Theorem c42_box o d : cell_centroid (corner o d) box_faces box_cell = Some (vadd o (vscale (/ Z2Qc 2) d)).
Proof.
  destruct o as [[a b] c], d as [[x y] z]. unfold cell_centroid, box_cell, box_faces. cbv [map Z.odd Z.to_nat Pos.to_nat Pos.iter_op Nat.add nth_error Z.ltb Z.compare brep_centroid concat app sequence option_map corner Z.testbit Pos.testbit Pos.pred_N Pos.pred_double mean length vsum fold_left].
  f_equal. cbn [Z.of_nat Pos.of_succ_nat Pos.succ]. unfold vscale, vadd, vzero.
  assert (K2 : Z2Qc 2 = 1 + 1) by (apply Qc_is_canon; reflexivity). assert (K4 : Z2Qc 4 = 1 + 1 + 1 + 1) by (apply Qc_is_canon; reflexivity). assert (K6 : Z2Qc 6 = 1 + 1 + 1 + 1 + 1 + 1) by (apply Qc_is_canon; reflexivity).
  assert (N2 : Z2Qc 2 <> 0) by discriminate. assert (N4 : Z2Qc 4 <> 0) by discriminate. assert (N6 : Z2Qc 6 <> 0) by discriminate. rewrite K2, K4, K6 in *.
  f_equal; [f_equal|]; field; auto.
Qed.
(** It is not the centroid of the solid in general: in this square pyramid (base at z = 0, apex at z = 1), cut into two tetrahedra of equal volume with
    barycentres at z = 1/4, the value returned has z = 4/15. *)
Example c42_not_mass_centre :
  let V := fun i => nth (Z.to_nat i) [(0, 0, 0); (1, 0, 0); (1, 1, 0); (0, 1, 0); (0, 0, 1)] vzero in
  let faces := [[[0; 3; 2; 1]]; [[0; 1; 4]]; [[1; 2; 4]]; [[2; 3; 4]]; [[3; 0; 4]]; [[0; 2; 4]]; [[0; 2; 1]]; [[0; 3; 2]]]%Z in
  let pyramid := [(0, true); (1, true); (2, true); (3, true); (4, true)]%Z in
  option_map snd (cell_centroid V faces pyramid) = Some (Z2Qc 4 / Z2Qc 15) /\
  cut_cell_volumes V faces [[(1, true); (2, true); (5, false); (6, true)]; [(3, true); (4, true); (5, true); (7, true)]; pyramid]%Z = Some [/ q6; / q6; / Z2Qc 3] /\
  option_map snd (mean [V 0; V 1; V 2; V 4]%Z) = Some (/ Z2Qc 4) /\ option_map snd (mean [V 0; V 2; V 3; V 4]%Z) = Some (/ Z2Qc 4).
Proof.
  cbn zeta. split; [|split; [|split]]; vm_compute; repeat f_equal; apply Qc_is_canon; reflexivity.
Qed.
