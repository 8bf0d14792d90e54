(** Property C128: the last stage of the 3D generator as one program. *)
From Coq Require Import Relations.
From Verif Require Import Base Num SmallestEdge CoordMask CoordMaskSpec CoordMaskProofs Vertex VertexSpec VertexProofs PropsVertex Grid ActiveMask DisjointSet DisjointSetSpec FaceCollapser CellCollapser CellCollapserSpec CellCollapserProofs PropsCells ExternalBoundary PropsExternal
  AdaptiveGrid AdaptiveSpec AdaptiveProofs AdaptiveFaces AdaptiveFactory PropsAdaptive PropsAdaptive2 Regions PropsRegions BakeCells.
Set Implicit Arguments.
Local Open Scope Z_scope.

(** ** Specification *)
(** the uncut unit cells of the grid *)
Definition uncut_at (act : coord -> bool) (p : c3) : Prop := let '(x, y, z) := p in act [x; y; z] = true.
(** the faces given to the stage: a std::map with non-negative ids, no external boundary yet *)
Definition faces_ok (fs : list (Z * gface)) : Prop :=
  ssorted Z.compare (map fst fs) /\ forall f g, In (f, g) fs -> 0 <= f /\ gf_ext g = None.
(** the cases in which C24 gives a tiling: unit cells on any grid, or a cube of side 2^k with a level below k or something cut *)
Definition tiling_case (s : c3) (act : coord -> bool) (level : option Z) : Prop :=
  (forall d, (d < 3)%nat -> 0 < get3 s d) /\
  (level = Some 0 \/ exists k, (1 <= k)%nat /\ s = cube3 (2 ^ Z.of_nat k) /\ ((exists m, level = Some m /\ 0 <= m < Z.of_nat k) \/ exists p, in_grid s p /\ ~ uncut_at act p)).
(** f is a face of the mesh that is not part of the input surface *)
Definition inner_face (b : baked) (f : Z) (g : gface) : Prop := In (f, g) (bk_faces b) /\ gf_mesh g = false.
(** cell i has face f on its boundary *)
Definition cell_has (b : baked) (i : Z) (f : Z) : Prop := exists fs sgn, 0 <= i /\ nth_error (bk_cells b) (Z.to_nat i) = Some fs /\ In (f, sgn) fs.
(** exterior cell c of the result contains the unit cell p *)
Definition cube_has (b : baked) (c : Z) (p : c3) : Prop := exists q, In (c, q) (bk_cubes b) /\ in_box q p.
(** neighbouring cells, with nothing of the input surface between them: cut cells through a common face; a cut cell and the exterior cell holding the
    unit cell recorded behind one of its faces; exterior cells holding adjacent unit cells *)
Inductive neighbours (s : c3) (b : baked) : Z -> Z -> Prop :=
| nb_cut i j f g : cell_has b i f -> cell_has b j f -> inner_face b f g -> neighbours s b i j
| nb_mixed i c f g p sgn : cell_has b i f -> inner_face b f g -> gf_ext g = Some (index3 s p, sgn) -> in_grid s p -> cube_has b c p -> neighbours s b i c
| nb_cubes c c' p d : (d < 3)%nat -> cube_has b c p -> cube_has b c' (add3 p d 1) -> neighbours s b c c'.
Definition same_component (s : c3) (b : baked) : Z -> Z -> Prop := clos_refl_sym_trans Z (neighbours s b).
(** the label of a cell of the result *)
Definition cell_label (b : baked) (i k : Z) : Prop := 0 <= i /\ nth_error (bk_regions b) (Z.to_nat i) = Some k.
Definition cube_label (b : baked) (c k : Z) : Prop := In (c, k) (bk_cube_regions b).

(** ** External boundaries *)
Lemma external3_uncut s act V m C o : external3 (shape_list s) act V m C = Some (Some o) -> o = -2 \/ exists p, in_grid s p /\ uncut_at act p /\ o = index3 s p.
Proof.
  unfold external3. destruct (mask_count m =? 1)%nat; [|discriminate]. destruct (gen_possible_cells2 V C) as [[|a [|b [|]]]|]; try discriminate.
  cbv zeta. destruct (nth_error a (first_diff a b)), (nth_error b (first_diff a b)), (nth_error (shape_list s) (first_diff a b)); try discriminate. destruct (_ <? 0); [intros [= <-]; auto|]. destruct (_ <=? _); [intros [= <-]; auto|].
  assert (G : forall c, in_shape (shape_list s) c = true -> is_active_cell (shape_list s) act c = true -> ravel (shape_list s) c = o -> exists p, in_grid s p /\ uncut_at act p /\ o = index3 s p).
  { intros c I A E. unfold is_active_cell in A. apply andb_true_iff in A as [_ A]. assert (L := in_shape_length _ _ I). destruct s as [[sn sm] sk]. cbn [shape_list length] in *.
    destruct c as [|x [|y [|zz [|]]]]; try discriminate. exists (x, y, zz). split; [apply in3_grid; auto|]. split; auto. }
  destruct (single_quad C); [|discriminate]. destruct (xorb _ _) eqn:X; [|discriminate]. destruct (is_active_cell _ act a) eqn:PA.
  - destruct (in_shape _ a) eqn:I; intros [= <-]; auto. right. eapply G; eauto.
  - destruct (in_shape _ b) eqn:I; intros [= <-]; auto. right. apply (G b); auto. destruct (is_active_cell _ act b); auto.
Qed.
Lemma set_externals_In s act V fs : forall r, set_externals s act V fs = Some r -> map fst r = map fst fs /\ forall i g, In (i, g) r <-> exists f, In (i, f) fs /\ set_external s act V f = Some g.
Proof.
  induction fs as [|[i f] t IH]; intros r H; cbn [set_externals] in H; [injection H as <-; split; auto; intros; split; [intros []|intros (f & [] & _)]|].
  destruct (set_external s act V f) as [g|] eqn:E; [|discriminate]. destruct (set_externals s act V t) as [r'|]; [|discriminate]. injection H as <-. destruct (IH _ eq_refl) as [A B]. split; [cbn; congruence|].
  intros j h. cbn [In]. rewrite B. split.
  - intros [[= <- <-]|(f' & I & E')]; eauto.
  - intros (f' & [[= -> ->]|I] & E'); [left; congruence|eauto].
Qed.

(** ** The tiling behind *)
Record good_cubes (s : c3) (act : coord -> bool) (fc : acells) : Prop := {
  gc_tiles : AdaptiveSpec.tiles s (uncut_at act) fc;
  gc_wf : wf_cells s fc;
  gc_disj : disjoint_cells fc;
  gc_id : forall i b, In (i, b) fc -> i = index3 s (fst b) }.
Definition cut3 (act : coord -> bool) : c3 -> bool := fun '(x, y, z) => negb (act [x; y; z]).
Lemma cut3_uncut act p : cut3 act p = false <-> uncut_at act p.
Proof. destruct p as [[x y] z]. cbn. destruct (act _); cbn; split; congruence. Qed.
Lemma unit_box c p : in_box (c, 1) p <-> p = c.
Proof.
  unfold in_box. rewrite all3. destruct c as [[a b] d], p as [[x y] z]. cbn. split; [intros (? & ? & ?); f_equal; [f_equal|]; lia|intros [= -> -> ->]; lia].
Qed.
Lemma factory_good s act level : tiling_case s act level -> good_cubes s act (factory_cells s (cut3 act) level).
Proof.
  intros [PS [->|(k & Hk & -> & H)]].
  - assert (L0 := fun i c w => @c24_level_zero s (cut3 act) i c w PS).
    assert (SS : ssorted Z.compare (map fst (factory_cells s (cut3 act) (Some 0)))).
    { unfold factory_cells. generalize (emit_cells s (cut3 act) (Some 0)). intros l. assert (G : forall m : acells, ssorted Z.compare (map fst m) -> ssorted Z.compare (map fst (fold_left (fun m c => map_set Z.compare (index3 s (fst c)) c m) l m))).
      { induction l as [|c l IH]; intros m Hm; cbn [fold_left]; auto. apply IH. apply (map_set_sorted Zcompare_total); auto. }
      apply G. constructor. }
    split.
    + split.
      * intros i [c w] p I B. apply L0 in I as (-> & -> & IG & U). apply unit_box in B as ->. split; auto. apply cut3_uncut; auto.
      * intros p IG U. exists (index3 s p, (p, 1)). split; [split; [apply L0; split; [auto|split; [auto|split; [auto|apply cut3_uncut; auto]]]|cbn [snd]; apply unit_box; auto]|].
        intros [i [c w]] [I B]. apply L0 in I as (-> & -> & _ & _). cbn [snd] in B. apply unit_box in B as ->. auto.
    + split; auto. intros i [c w] I. apply L0 in I as (-> & -> & IG & U). split; [|split; [cbn; lia|intros p B; apply unit_box in B as ->; auto]].
      apply in3_grid in IG. destruct s as [[sn sm] sk], c as [[x y] z]. cbn [in3 index3] in *. apply ravel_range; auto.
    + intros i [a v] j [b w] p Hi Hj A B. apply L0 in Hi as (-> & -> & _ & _), Hj as (-> & -> & _ & _). apply unit_box in A as ->. apply unit_box in B as ->. auto.
    + intros i [c w] I. apply L0 in I. apply I.
  - destruct (@c24_cells_tile_the_inactive_region_partial k (cut3 act) level Hk) as ([T1 T2] & W & D & I).
    { destruct H as [H|(p & IG & U)]; auto. right. exists p. split; auto. destruct (cut3 act p) eqn:E; auto. apply cut3_uncut in E. destruct (U E). }
    split; auto; [|intros i b J; apply (I i b J)]. split.
    + intros i b p J B. destruct (T1 i b p J B) as [A E]. split; auto. apply cut3_uncut; auto.
    + intros p IG U. apply T2; auto. apply cut3_uncut; auto.
Qed.

(** ** The input of the labelling *)
Section B.
  Variables (lnk1 lnk2 : ds -> Z -> Z -> bool) (ord : edge -> list Z -> list Z) (s : c3) (act : coord -> bool) (level : option Z) (V : Z -> vertex) (fs : list (Z * gface)) (b : baked).
  Hypothesis FO : faces_ok fs.
  Hypothesis TC : tiling_case s act level.
  Hypothesis BK : bake3 lnk1 lnk2 ord s act level V fs = Some b.
  Definition rin (b : baked) : rinput := mkRI (bk_cells b) (map (fun '(i, g) => (i, mkRF (gf_mesh g) (gf_ext g) (match gf_mask g with x :: _ => x | [] => None end))) (bk_faces b)) (bk_cubes b)
             (map af_dual (bk_afaces b)) (grid_get s (grid_from_cells (bk_cubes b))) (get3 s 0 + 1).
  Lemma rin_regions : bk_regions b = cell_regions lnk2 (rin b) /\ bk_cube_regions b = exterior_regions lnk2 (rin b).
  Proof. unfold bake3 in BK. destruct (set_externals s act V fs); [|discriminate]. cbn [option_map] in BK. apply Some_inj in BK. rewrite <- BK. split; reflexivity. Qed.
  Let fc := factory_cells s (cut3 act) level.
  Let GC : good_cubes s act fc := factory_good TC.
  Let n := Z.of_nat (length (bk_cells b)).
  Lemma b_cubes : bk_cubes b = renumber n fc /\ bk_afaces b = make_faces s fc.
  Proof. unfold n. unfold bake3 in BK. destruct (set_externals s act V fs); [|discriminate]. cbn [option_map] in BK. apply Some_inj in BK. rewrite <- BK. split; reflexivity. Qed.
  Lemma b_faces : map fst (bk_faces b) = map fst fs /\ forall i g, In (i, g) (bk_faces b) <-> exists f, In (i, f) fs /\ gf_loops g = gf_loops f /\ gf_mask g = gf_mask f /\ gf_mesh g = gf_mesh f /\ exists o, external3 (shape_list s) act V (gf_mask f) (gf_loops f) = Some o /\ gf_ext g = match o with Some c => Some (c, bake_sign (bk_cells b) i false) | None => None end.
  Proof.
    unfold bake3 in BK. destruct (set_externals s act V fs) as [gs|] eqn:E; [|discriminate]. cbn [option_map] in BK. apply Some_inj in BK. apply set_externals_In in E as [E1 E2].
    assert (EF : bk_faces b = sign_external (bk_cells b) gs) by (rewrite <- BK; reflexivity). rewrite EF. unfold sign_external. split; [rewrite <- E1, map_map; apply map_ext; intros []; auto|].
    intros i g. rewrite in_map_iff. split.
    - intros ([i' h] & X & I). apply pair_equal_spec in X as [<- <-]. apply E2 in I as (f & I & SE). exists f. split; auto. unfold set_external in SE. destruct (external3 _ _ _ _ _) as [o|]; [|discriminate]. apply Some_inj in SE as <-. cbn [gf_loops gf_mask gf_mesh gf_ext].
      repeat split; auto. exists o. split; auto. destruct o as [c|]; auto. rewrite (proj2 (proj2 FO _ _ I)). auto.
    - intros (f & I & L & M & Me & o & X & G). exists (i, mkGF (gf_loops f) (gf_mask f) (gf_mesh f) (match o with Some c => Some (c, false) | None => gf_ext f end)). split.
      + apply pair_equal_spec. split; auto. destruct g as [l m me e]. cbn [gf_loops gf_mask gf_mesh gf_ext] in *. subst. destruct o; auto. rewrite (proj2 (proj2 FO _ _ I)). auto.
      + apply E2. exists f. split; auto. unfold set_external. rewrite X. auto.
  Qed.
  Lemma ren : wf_cells s (bk_cubes b) /\ disjoint_cells (bk_cubes b).
  Proof. rewrite (proj1 b_cubes). apply renumber_wf; [unfold n; lia|apply GC|apply GC]. Qed.
  Lemma get_at p : in_grid s p -> grid_get s (grid_from_cells (bk_cubes b)) (index3 s p) = grid_from_cells (bk_cubes b) p.
  Proof.
    intros IG. unfold grid_get. apply in3_grid in IG. destruct s as [[sn sm] sk], p as [[x y] z]. cbn [in3 index3 shape_list] in *. rewrite unravel_ravel; auto.
  Qed.
  Lemma get_owner p c : in_grid s p -> cube_has b c p -> grid_get s (grid_from_cells (bk_cubes b)) (index3 s p) = c.
  Proof.
    intros IG (q & I & B). rewrite get_at by auto. destruct ren as [W D]. apply (@gfc_owner s); auto; [apply (proj2 W _ _ I)|]. exists q. auto.
  Qed.
  (** every uncut cell has an owner *)
  Lemma owner_ex p : in_grid s p -> uncut_at act p -> exists c, cube_has b c p.
  Proof.
    intros IG U. destruct (proj2 (gc_tiles GC) p IG U) as ([i q] & [I B] & _). cbn [snd] in B. apply In_nth_error in I as [k K]. exists (n + Z.of_nat k), q. split; auto. rewrite (proj1 b_cubes). apply renumber_In. eauto.
  Qed.
  (** old cell of a new one *)
  Lemma old_of c q : In (c, q) (bk_cubes b) -> exists i, In (i, q) fc /\ c = grid_get s (grid_from_cells (bk_cubes b)) i /\ i = index3 s (fst q) /\ in_grid s (fst q) /\ in_box q (fst q).
  Proof.
    intros I. assert (I' := I). rewrite (proj1 b_cubes) in I. apply renumber_In in I as (k & i & K & ->). assert (J := nth_error_In _ _ K). exists i. split; auto.
    assert (BX : in_box q (fst q)) by (intros d Hd; assert (X := proj1 (proj2 (proj2 (gc_wf GC) i q J))); lia).
    assert (IG := proj2 (proj2 (proj2 (gc_wf GC) i q J)) _ BX). rewrite (gc_id GC _ _ J). split; auto. symmetry. apply get_owner; auto. exists q. auto.
  Qed.
  Lemma new_of i q : In (i, q) fc -> In (grid_get s (grid_from_cells (bk_cubes b)) i, q) (bk_cubes b).
  Proof.
    intros J. assert (X := J). apply In_nth_error in X as [k K]. assert (I : In (n + Z.of_nat k, q) (bk_cubes b)) by (rewrite (proj1 b_cubes); apply renumber_In; eauto).
    destruct (old_of _ _ I) as (i' & J' & E & E' & _). rewrite (gc_id GC _ _ J), <- E', <- E. auto.
  Qed.
  Lemma cubes_range c q : In (c, q) (bk_cubes b) -> n <= c < n + Z.of_nat (length (bk_cubes b)).
  Proof.
    rewrite (proj1 b_cubes). intros I. apply renumber_In in I as (k & i & K & ->). assert (k < length fc)%nat by (apply nth_error_Some; congruence). unfold renumber. rewrite map_length, combine_length, seq_length. lia.
  Qed.
  Lemma dual_meet a c : In (a, c) (map af_dual (bk_afaces b)) -> exists d, (d < 3)%nat /\ meet s fc d a c.
  Proof.
    intros H. apply in_map_iff in H as (f & E & I). rewrite (proj2 b_cubes) in I. destruct (c26_one_face_per_meeting_pair _ _ (proj1 TC) (gc_wf GC) (gc_disj GC)) as (_ & A & M).
    exists (af_axis f). split; auto. apply M; auto. eauto.
  Qed.
  Lemma rin_ok : input_ok (rin b).
  Proof.
    destruct b_faces as [F1 F2]. split; cbn [rin ri_faces ri_cells ri_cubes ri_duals ri_get].
    - rewrite map_map. rewrite (map_ext _ fst) by (intros [i g]; auto). rewrite F1. apply FO.
    - intros f x I. apply in_map_iff in I as ([i g] & E & I). apply pair_equal_spec in E as [<- _]. apply F2 in I as (f' & I & _). apply (proj2 FO _ _ I).
    - intros c q I. unfold max_cell_id, ncells. cbn [rin ri_cells ri_cubes]. apply (cubes_range _ _ I).
    - intros a c I A C. destruct (dual_meet _ _ I) as (d & Hd & M).
      assert (G : forall i x, owns fc i x -> is_ext (rin b) (grid_get s (grid_from_cells (bk_cubes b)) i)).
      { intros i x (q & J & _). unfold is_ext. cbn [rin ri_cubes]. change (grid_get s (grid_from_cells (bk_cubes b)) i) with (fst (grid_get s (grid_from_cells (bk_cubes b)) i, q)). apply in_map, new_of; auto. }
      destruct M as [(_ & x & O1 & O2)|[(E & _)|(E & _)]]; [|lia|lia]. split; eapply G; eauto.
    - intros f x o sgn I MF E O. apply in_map_iff in I as ([i g] & X & I). apply pair_equal_spec in X as [<- <-]. cbn [rf_mesh rf_ext] in *. apply F2 in I as (f' & I & _ & _ & _ & o' & EX & E'). rewrite E in E'.
      destruct o' as [c|]; [|discriminate]. apply Some_inj, pair_equal_spec in E' as [-> _]. apply external3_uncut in EX as [->|(p & IG & U & ->)]; [lia|]. destruct (owner_ex IG U) as (c & CH). rewrite (get_owner IG CH).
      destruct CH as (q & J & _). unfold is_ext. cbn [rin ri_cubes]. change c with (fst (c, q)). apply in_map. auto.
  Qed.
  Lemma is_cut_has i f : cell_has b i f <-> exists fs' sgn, is_cut (rin b) i fs' /\ In (f, sgn) fs'.
  Proof. unfold cell_has, is_cut. cbn [rin ri_cells]. split; [intros (x & sgn & A & B & C); exists x, sgn; auto|intros (x & sgn & [A B] & C); exists x, sgn; auto]. Qed.
  Lemma open_inner f x : open_face (rin b) f x -> exists g, inner_face b f g /\ rf_ext x = gf_ext g.
  Proof. intros [I M]. cbn [rin ri_faces] in I. apply in_map_iff in I as ([i g] & E & I). apply pair_equal_spec in E as [<- <-]. exists g. split; auto. split; auto. Qed.
  Lemma inner_open f g : inner_face b f g -> exists x, open_face (rin b) f x /\ rf_ext x = gf_ext g.
  Proof.
    intros [I M]. exists (mkRF (gf_mesh g) (gf_ext g) (match gf_mask g with x :: _ => x | [] => None end)). split; [|auto]. split; auto. cbn [rin ri_faces]. apply in_map_iff. exists (f, g). auto.
  Qed.
  Lemma touch_neighbours x y : touch (rin b) x y -> neighbours s b x y.
  Proof.
    intros [i j fi fj f t t' z A B C D E|i fi f t z o sg A B C D E|a c A B C].
    - destruct (open_inner E) as (g & G & _). apply nb_cut with (f := f) (g := g); auto; apply is_cut_has; eauto.
    - destruct (open_inner C) as (g & G & X). rewrite X in D. destruct G as [G1 G2]. assert (G1' := G1). apply (proj2 b_faces) in G1 as (f' & I & _ & _ & _ & o' & EX & E'). rewrite D in E'. destruct o' as [w|]; [|discriminate]. apply Some_inj, pair_equal_spec in E' as [-> E2].
      apply external3_uncut in EX as [->|(p & IG & U & ->)]; [lia|]. destruct (owner_ex IG U) as (c & CH). cbn [rin ri_get]. rewrite (get_owner IG CH). eapply nb_mixed with (f := f) (g := g) (p := p); eauto; [apply is_cut_has; eauto|split; auto].
    - destruct (dual_meet _ _ A) as (d & Hd & [(_ & p & (q & J & B1) & (q' & J' & B2))|[(E & _)|(E & _)]]); [|lia|lia]. cbn [rin ri_get]. eapply nb_cubes with (p := p) (d := d); auto; eexists; split; try apply new_of; eauto.
  Qed.
  Lemma neighbours_touch x y : neighbours s b x y -> x = y \/ touch (rin b) x y.
  Proof.
    intros [i j f g A B C|i c f g p sg A B C D E|c c' p d Hd (q & I & B1) (q' & I' & B2)].
    - right. apply is_cut_has in A as (fi & t & A1 & A2), B as (fj & t' & B1 & B2). destruct (inner_open C) as (z & Z1 & _). eapply touch_cut; eauto.
    - right. apply is_cut_has in A as (fi & t & A1 & A2). destruct (inner_open B) as (z & Z1 & Z2). rewrite <- (get_owner D E). change (grid_get s (grid_from_cells (bk_cubes b))) with (ri_get (rin b)). eapply touch_ext; eauto; [rewrite Z2; eauto|].
      apply in3_grid in D. destruct s as [[sn sm] sk], p as [[x1 y1] z1]. apply ravel_range; auto.
    - destruct (old_of _ _ I) as (i & J & -> & _), (old_of _ _ I') as (j & J' & -> & _). destruct (Z.eq_dec i j) as [->|N]; auto. right. change (grid_get s (grid_from_cells (bk_cubes b))) with (ri_get (rin b)). apply touch_exts.
      + cbn [rin ri_duals]. rewrite (proj2 b_cubes). destruct (c26_one_face_per_meeting_pair _ _ (proj1 TC) (gc_wf GC) (gc_disj GC)) as (_ & _ & M). destruct (proj2 (M d i j Hd)) as (f & F1 & _ & F2).
        { left. split; auto. exists p. split; eexists; eauto. }
        apply in_map_iff. eauto.
      + apply (proj2 (gc_wf GC) _ _ J).
      + apply (proj2 (gc_wf GC) _ _ J').
  Qed.
  Lemma linked_component x y : linked (rin b) x y <-> same_component s b x y.
  Proof.
    split; intros H; induction H as [x y H|x|x y H IH|x y z H1 IH1 H2 IH2].
    - apply rst_step, touch_neighbours; auto.
    - apply rst_refl.
    - apply rst_sym; auto.
    - eapply rst_trans; eauto.
    - destruct (neighbours_touch H) as [->|T]; [apply rst_refl|apply rst_step; auto].
    - apply rst_refl.
    - apply rst_sym; auto.
    - eapply rst_trans; eauto.
  Qed.
End B.

(** ** C128: the cells *)
Lemma filter_pos (A : Type) (p : A -> bool) l : exists h : nat -> nat, (forall i j x y, nth_error (filter p l) i = Some x -> nth_error (filter p l) j = Some y -> h i = h j -> i = j) /\
  (forall i x, nth_error (filter p l) i = Some x -> nth_error l (h i) = Some x).
Proof.
  induction l as [|a l (h & H1 & H2)]; [exists (fun i => i); split; intros [|]; discriminate|]. cbn [filter]. destruct (p a).
  - exists (fun i => match i with O => O | S j => S (h j) end). split; [intros [|i] [|j] x y; cbn; intros X Y E; try discriminate; auto; f_equal; eapply H1; eauto|].
    intros [|i] x; cbn; auto.
  - exists (fun i => S (h i)). split; [intros i j x y X Y E; injection E; eauto|intros i x; cbn; auto].
Qed.
Definition raw_faces (fs : list (Z * gface)) : list (Z * list loop) := map (fun '(i, g) => (i, gf_loops g)) fs.
Lemma boundary_sorted m c : ssorted Z.compare (map fst (boundary_of m c)).
Proof.
  unfold boundary_of. assert (G : forall (l : hfmap) acc, ssorted Z.compare (map fst acc) -> ssorted Z.compare (map fst (fold_left (fun acc '((f, _), (c', b)) => if c' =? c then map_set Z.compare f b acc else acc) l acc))).
  { induction l as [|[[f e] [c' b]] l IH]; intros acc H; cbn [fold_left]; auto. apply IH. destruct (c' =? c); auto. apply (map_set_sorted Zcompare_total); auto. }
  apply G. constructor.
Qed.
Lemma raw_same s act V fs gs : set_externals s act V fs = Some gs -> map (fun '(i, g) => (i, gf_loops g)) gs = raw_faces fs.
Proof.
  revert gs. induction fs as [|[i f] t IH]; intros gs H; cbn [set_externals] in H; [injection H as <-; auto|].
  destruct (set_external s act V f) as [g|] eqn:E; [|discriminate]. destruct (set_externals s act V t) as [r'|]; [|discriminate]. injection H as <-. cbn [map raw_faces]. fold (raw_faces t). rewrite (IH _ eq_refl). f_equal.
  unfold set_external in E. destruct (external3 _ _ _ _ _); [|discriminate]. apply Some_inj in E as <-. auto.
Qed.
(** the face's plane: axis d at v is the only coordinate the mask fixes *)
Definition only_bound (m : mask) (d : nat) (v : Z) : Prop := nth_error m d = Some (Some v) /\ forall e w, nth_error m e = Some (Some w) -> e = d.
Lemma bound_axes_In m : forall i d v, In (d, v) (bound_axes i m) <-> exists j, d = (i + j)%nat /\ nth_error m j = Some (Some v).
Proof.
  induction m as [|[x|] t IH]; intros i d v; cbn [bound_axes].
  - split; [intros []|intros ([|j] & _ & H); discriminate].
  - cbn [In]. rewrite IH. split.
    + intros [H|(j & -> & H)]; [injection H as -> ->; exists 0%nat; split; [lia|auto]|exists (S j); split; [lia|auto]].
    + intros ([|j] & -> & H); [left; cbn in H; injection H as ->; f_equal; lia|right; exists j; split; [lia|auto]].
  - rewrite IH. split.
    + intros (j & -> & H). exists (S j). split; [lia|auto].
    + intros ([|j] & -> & H); [discriminate|exists j; split; [lia|auto]].
Qed.
Lemma bound_axes_NoDup m : forall i, NoDup (map fst (bound_axes i m)).
Proof.
  induction m as [|[x|] t IH]; intros i; cbn [bound_axes map]; [constructor| |apply IH]. constructor; [|apply IH]. cbn [fst]. intros H. apply in_map_iff in H as ([d v] & E & H). cbn [fst] in E. subst d.
  apply bound_axes_In in H as (j & E & _). lia.
Qed.
Lemma only_bound_iff m d v : bound_axes 0 m = [(d, v)] <-> only_bound m d v.
Proof.
  assert (BI := fun d v => bound_axes_In m 0 d v). split.
  - intros H. rewrite H in BI. split.
    + destruct (proj1 (BI d v) (or_introl eq_refl)) as (j & -> & X). auto.
    + intros e w X. destruct (proj2 (BI e w)) as [Y|[]]; [exists e; auto|]. congruence.
  - intros [H1 H2]. assert (ND := bound_axes_NoDup m 0). destruct (bound_axes 0 m) as [|[d0 v0] l] eqn:E.
    + exfalso. apply (proj2 (BI d v)). exists d. auto.
    + assert (A : forall e w, In (e, w) ((d0, v0) :: l) -> e = d /\ w = v). { intros e w I. apply BI in I as (j & -> & X). cbn [Nat.add] in *. assert (j = d) by eauto. subst j. split; auto. congruence. }
      destruct (A d0 v0 (or_introl eq_refl)) as [-> ->]. destruct l as [|[e w] l]; auto. exfalso. destruct (A e w) as [-> ->]; [right; left; auto|]. cbn [map fst] in ND. inversion ND as [|? ? N _]; subst. apply N. left; auto.
Qed.
(** Of every face, each side belongs to at most one cell; both sides of a folded face to one and the same. A cell of the collapser is left out exactly when all its
    faces have an external boundary or all of them lie on the walls of the domain. *)
Theorem c128_cells lnk1 lnk2 ord s act level V fs b : faces_ok fs -> bake3 lnk1 lnk2 ord s act level V fs = Some b ->
  (forall i fi f sgn, nth_error (bk_cells b) i = Some fi -> In (f, sgn) fi -> In f (map fst fs)) /\
  (forall i j fi fj f sgn sgn', nth_error (bk_cells b) i = Some fi -> nth_error (bk_cells b) j = Some fj -> In (f, sgn) fi -> In (f, sgn') fj -> In f (bk_folded b) \/ sgn = sgn' -> i = j) /\
  (forall i fi f sgn sgn', nth_error (bk_cells b) i = Some fi -> In (f, sgn) fi -> In (f, sgn') fi -> sgn = sgn') /\
  (forall fi, In fi (bk_cells b) <-> In fi (cl_bnd (collapse lnk1 ord true (raw_faces fs))) /\
     (exists f sgn, In (f, sgn) fi /\ forall g, In (f, g) (bk_faces b) -> gf_ext g = None) /\
     (exists f sgn, In (f, sgn) fi /\ forall g d v, In (f, g) (bk_faces b) -> only_bound (gf_mask g) d v -> v <> 0 /\ nth_error (shape_list s) d <> Some v)).
Proof.
  intros FO BK. assert (BK' := BK). unfold bake3 in BK. destruct (set_externals s act V fs) as [gs|] eqn:E; [|discriminate]. cbn [option_map] in BK. apply Some_inj in BK. assert (RS := raw_same _ _ _ _ E).
  assert (EI := set_externals_In _ _ _ _ E). destruct EI as [EF EI].
  set (col := collapse lnk1 ord true (raw_faces fs)) in *.
  assert (EC : bk_cells b = kept_cells s gs (cl_bnd col)) by (rewrite <- BK; unfold bake_cells; cbn [bk_cells]; rewrite RS; reflexivity).
  assert (EFo : bk_folded b = folded_faces (cl_hf col)) by (rewrite <- BK; unfold bake_cells; cbn [bk_folded]; rewrite RS; reflexivity).
  assert (FP : forall f, In f (map fst (raw_faces fs)) -> 0 <= f).
  { intros f I. unfold raw_faces in I. rewrite map_map in I. rewrite (map_ext _ fst) in I by (intros []; auto). apply in_map_iff in I as ([i g] & <- & I). apply (proj2 FO _ _ I). }
  destruct (@c20_every_side_in_one_cell lnk1 ord true (raw_faces fs) FP) as (cell & _ & _ & _ & C4 & C5 & C6 & C7). fold col in C4, C5, C6, C7.
  assert (SO : forall fi, In fi (cl_bnd col) -> ssorted Z.compare (map fst fi)).
  { intros fi I. unfold col, collapse in I. cbn [cl_bnd] in I. apply in_map_iff in I as (c & <- & _). apply boundary_sorted. }
  assert (FI : forall fi f sgn, In fi (cl_bnd col) -> In (f, sgn) fi <-> map_find Z.compare f fi = Some sgn).
  { intros fi f sgn I. symmetry. apply (map_find_Some Zcompare_total). apply SO. auto. }
  assert (KP : exists h : nat -> nat, (forall i j x y, nth_error (bk_cells b) i = Some x -> nth_error (bk_cells b) j = Some y -> h i = h j -> i = j) /\ (forall i x, nth_error (bk_cells b) i = Some x -> nth_error (cl_bnd col) (h i) = Some x)).
  { rewrite EC. unfold kept_cells, remove_grid_boundary_cells, remove_boundary_cells. match goal with |- context [filter ?p (filter ?q ?l)] => destruct (filter_pos p (filter q l)) as (h1 & A1 & B1); destruct (filter_pos q l) as (h2 & A2 & B2) end.
    exists (fun i => h2 (h1 i)). split; [|intros i x X; apply B2, B1; auto]. intros i j x y X Y Q. eapply A1; eauto. }
  destruct KP as (h & HI & HN).
  assert (CELL : forall i fi f sgn, nth_error (bk_cells b) i = Some fi -> In (f, sgn) fi -> kept (raw_faces fs) f /\ cell f sgn = Z.of_nat (h i) /\ (In f (bk_folded b) -> forall t, cell f t = Z.of_nat (h i))).
  { intros i fi f sgn N I. assert (N' := HN _ _ N). assert (J := nth_error_In _ _ N'). apply (FI _ _ _ J) in I. assert (K := C7 _ _ _ _ N' I). rewrite EFo. destruct (in_dec Z.eq_dec f (folded_faces (cl_hf col))) as [FD|NF].
    - destruct (proj1 (C4 f) FD) as [_ Q]. assert (X : cell f true = Z.of_nat (h i)) by (apply (C6 f _ _ K FD N'); eauto). split; auto. split; [destruct sgn; congruence|]. intros _ [|]; congruence.
    - split; auto. split; [apply (C5 f sgn _ _ K NF N'); auto|tauto]. }
  split; [|split; [|split]].
  - intros i fi f sgn N I. destruct (CELL _ _ _ _ N I) as (K & _). unfold kept in K. apply (build_wf (raw_faces fs)) in K. unfold raw_faces in K. rewrite map_map in K. rewrite (map_ext _ fst) in K by (intros []; auto). auto.
  - intros i j fi fj f sgn sgn' Ni Nj Ii Ij H. destruct (CELL _ _ _ _ Ni Ii) as (_ & X1 & X2), (CELL _ _ _ _ Nj Ij) as (_ & Y1 & Y2). eapply HI; eauto. destruct H as [H|<-]; [specialize (X2 H true); specialize (Y2 H true)|]; lia.
  - intros i fi f sgn sgn' N I I'. assert (J := nth_error_In _ _ (HN _ _ N)). apply (FI _ _ _ J) in I, I'. congruence.
  - intros fi. rewrite EC. unfold kept_cells, remove_grid_boundary_cells, remove_boundary_cells. rewrite !filter_In, !negb_forallb_iff.
    assert (AT : forall f g, In (f, g) gs -> gface_at gs f = Some g).
    { intros f g I. unfold gface_at. apply (map_find_Some Zcompare_total); [unfold keys; rewrite EF; apply FO|auto]. }
    assert (EB : bk_faces b = sign_external (bk_cells b) gs) by (rewrite <- BK; reflexivity).
    assert (BF : forall f g, In (f, g) (bk_faces b) <-> exists g0, In (f, g0) gs /\ g = mkGF (gf_loops g0) (gf_mask g0) (gf_mesh g0) (match gf_ext g0 with Some (c, x) => Some (c, bake_sign (bk_cells b) f x) | None => None end)).
    { intros f g. rewrite EB. unfold sign_external. rewrite in_map_iff. split; [intros ([f' g0] & X & I); apply pair_equal_spec in X as [<- <-]; eauto|intros (g0 & I & ->); exists (f, g0); auto]. }
    assert (AT' : forall f g, gface_at gs f = Some g -> In (f, g) gs).
    { intros f g I. unfold gface_at in I. apply (map_find_Some Zcompare_total) in I; auto. unfold keys. rewrite EF. apply FO. }
    assert (P1 : (exists y, In y fi /\ (let '(f, _) := y in match gface_at gs f with Some g => match gf_ext g with Some _ => true | None => false end | None => false end) = false) <->
                 (exists f sgn, In (f, sgn) fi /\ forall g, In (f, g) (bk_faces b) -> gf_ext g = None)).
    { split.
      - intros ([f sgn] & I & X). exists f, sgn. split; auto. intros g J. apply BF in J as (g0 & J & ->). rewrite (AT _ _ J) in X. cbn [gf_ext]. destruct (gf_ext g0) as [[]|]; [discriminate|auto].
      - intros (f & sgn & I & X). exists (f, sgn). split; auto. destruct (gface_at gs f) as [g0|] eqn:G; auto. apply AT' in G. destruct (gf_ext g0) as [[c x]|] eqn:GE; auto. exfalso. specialize (X _ (proj2 (BF f _) (ex_intro _ g0 (conj G eq_refl)))). cbn [gf_ext] in X. rewrite GE in X. discriminate. }
    assert (P2 : (exists y, In y fi /\ (let '(f, _) := y in on_grid_boundary (shape_list s) (match gface_at gs f with Some g => bound_axes 0 (gf_mask g) | None => [] end)) = false) <->
                 (exists f sgn, In (f, sgn) fi /\ forall g d v, In (f, g) (bk_faces b) -> only_bound (gf_mask g) d v -> v <> 0 /\ nth_error (shape_list s) d <> Some v)).
    { split.
      - intros ([f sgn] & I & X). exists f, sgn. split; auto. intros g d v J BA. apply BF in J as (g0 & J & ->). cbn [gf_mask] in BA. apply only_bound_iff in BA. rewrite (AT _ _ J), BA in X. cbn [on_grid_boundary] in X. apply orb_false_iff in X as [X1 X2]. apply Z.eqb_neq in X1. split; auto. intros N. rewrite N, Z.eqb_refl in X2. discriminate.
      - intros (f & sgn & I & X). exists (f, sgn). split; auto. destruct (gface_at gs f) as [g0|] eqn:G; auto. apply AT' in G. destruct (bound_axes 0 (gf_mask g0)) as [|[d v] [|]] eqn:BA; auto. cbn [on_grid_boundary].
        destruct (X _ d v (proj2 (BF f _) (ex_intro _ g0 (conj G eq_refl)))) as [X1 X2]; [cbn [gf_mask]; apply only_bound_iff; auto|]. apply orb_false_iff. split; [apply Z.eqb_neq; auto|]. destruct (nth_error (shape_list s) d) as [w|]; auto. apply Z.eqb_neq. congruence. }
    rewrite P1, P2. tauto.
Qed.

(** ** C128: faces and external boundaries *)
(** The stage runs through when every face has a loop, no loop is empty and the vertices are proper. *)
Theorem c128_defined lnk1 lnk2 ord s act level V fs :
  (forall f g, In (f, g) fs -> gf_loops g <> [] /\ forall l, In l (gf_loops g) -> l <> [] /\ forall i, In i l -> v_wf 3 (V i) /\ normalised (V i)) ->
  exists b, bake3 lnk1 lnk2 ord s act level V fs = Some b.
Proof.
  intros H. unfold bake3. enough (G : exists gs, set_externals s act V fs = Some gs) by (destruct G as [gs ->]; eexists; reflexivity).
  induction fs as [|[i f] t IH]; cbn [set_externals]; [eauto|]. destruct IH as [r ->]; [intros f' g I; apply (H f' g); right; auto|]. destruct (H i f (or_introl eq_refl)) as [NE LO].
  assert (X : exists o, external3 (shape_list s) act V (gf_mask f) (gf_loops f) = Some o).
  { unfold external3. destruct (mask_count (gf_mask f) =? 1)%nat; [|eauto]. destruct (@c06_generator_loops V 3 (gf_loops f)) as [G1 G2]; [intros l j I J; apply (LO l I); auto|].
    destruct (gen_possible_cells2 V (gf_loops f)) as [S|] eqn:E; [|exfalso; destruct (proj1 G1 eq_refl) as [t' T]; destruct (LO []) as [N _]; [rewrite T; left; auto|congruence]].
    assert (L3 : forall x, In x S -> length x = 3%nat).
    { intros x I0. assert (I := proj1 (G2 S eq_refl NE x) I0). clear I0. destruct (gf_loops f) as [|[|j l] q]; [congruence|destruct (LO []) as [N _]; [left; auto|congruence]|]. specialize (I (j :: l) j (or_introl eq_refl) (or_introl eq_refl)).
      unfold in_closed_cell in I. rewrite Forall2_nth in I. destruct I as [I _]. rewrite I. destruct (LO (j :: l)) as [_ W]; [left; auto|]. destruct (W j) as [W' _]; [left; auto|]. apply pos_length; auto. }
    assert (SS := gen2_sorted _ _ E). destruct S as [|a [|c [|]]]; eauto.
    assert (La := L3 a (or_introl eq_refl)). assert (Lc := L3 c (or_intror (or_introl eq_refl))).
    assert (NQ : a <> c). { intros ->. assert (ND := ssorted_NoDup zlex_total SS). inversion ND as [|? ? N1 N2]. apply N1. left. auto. }
    cbv zeta. destruct s as [[sn sm] sk]. cbn [shape_list]. destruct a as [|a0 [|a1 [|a2 [|]]]], c as [|c0 [|c1 [|c2 [|]]]]; try discriminate. cbn [first_diff].
    destruct (Z.eqb_spec a0 c0) as [->|]; [destruct (Z.eqb_spec a1 c1) as [->|]; [destruct (Z.eqb_spec a2 c2) as [->|]; [congruence|]|]|]; cbn [nth_error];
    (repeat match goal with |- context [if ?e then _ else _] => destruct e end; eauto). }
  destruct X as [o X]. unfold set_external. rewrite X. cbn [option_map]. eauto.
Qed.
(** The faces of the result are the given ones; a recorded cell behind a face is an uncut cell of the grid (or -2), and its side is the one opposite to the only cell
    that has the face. *)
Theorem c128_external lnk1 lnk2 ord s act level V fs b : faces_ok fs -> bake3 lnk1 lnk2 ord s act level V fs = Some b ->
  map fst (bk_faces b) = map fst fs /\
  forall f g, In (f, g) (bk_faces b) ->
    (exists g0, In (f, g0) fs /\ gf_loops g = gf_loops g0 /\ gf_mask g = gf_mask g0 /\ gf_mesh g = gf_mesh g0) /\
    (forall o sgn, gf_ext g = Some (o, sgn) -> o = -2 \/ exists p, in_grid s p /\ uncut_at act p /\ o = index3 s p) /\
    (forall o sgn i fi sgn', gf_ext g = Some (o, sgn) -> nth_error (bk_cells b) i = Some fi -> In (f, sgn') fi ->
       (forall j fj sgn'', nth_error (bk_cells b) j = Some fj -> In (f, sgn'') fj -> j = i) -> sgn = negb sgn').
Proof.
  intros FO BK. destruct (b_faces _ _ _ _ _ _ _ FO BK) as [F1 F2]. split; auto. intros f g I. apply F2 in I as (g0 & I & L & M & Me & o & EX & GE). split; [eauto|]. split.
  - intros c sgn E. rewrite E in GE. destruct o as [c'|]; [|discriminate]. apply Some_inj, pair_equal_spec in GE as [-> _]. eapply external3_uncut; eauto.
  - intros c sgn i fi sgn' E N J U. rewrite E in GE. destruct o as [c'|]; [|discriminate]. apply Some_inj, pair_equal_spec in GE as [_ ->].
    assert (SO : forall k fk, nth_error (bk_cells b) k = Some fk -> ssorted Z.compare (keys fk)).
    { intros k fk K. destruct (c128_cells _ _ _ _ _ _ _ FO BK) as (_ & _ & _ & C). apply nth_error_In in K. apply C in K as [K _]. unfold collapse in K. cbn [cl_bnd] in K. apply in_map_iff in K as (x & <- & _). apply boundary_sorted. }
    apply c50_sign with (i := i) (c := fi); auto.
    + apply (map_find_Some Zcompare_total); auto. eapply SO; eauto.
    + intros j fj K NN. destruct (map_find Z.compare f fj) as [x|] eqn:Q; [|congruence]. apply (map_find_Some Zcompare_total) in Q; [|eapply SO; eauto]. eapply U; eauto.
Qed.

(** ** C128: exterior cells and labels *)
(** The exterior cells tile the uncut region, their ids follow those of the cut cells, and every cell has a label. *)
Theorem c128_labelled lnk1 lnk2 ord s act level V fs b : faces_ok fs -> tiling_case s act level -> bake3 lnk1 lnk2 ord s act level V fs = Some b ->
  let n := Z.of_nat (length (bk_cells b)) in
  AdaptiveSpec.tiles s (uncut_at act) (bk_cubes b) /\ map fst (bk_cubes b) = zrange n (length (bk_cubes b)) /\
  (forall i, 0 <= i < n -> exists k, cell_label b i k /\ 0 <= k) /\ (forall i k, cell_label b i k -> 0 <= i < n) /\
  (forall c, In c (map fst (bk_cubes b)) <-> exists k, cube_label b c k) /\ (forall c k k', cube_label b c k -> cube_label b c k' -> k = k' /\ 0 <= k).
Proof.
  intros FO TC BK n. assert (GC := factory_good TC). destruct (b_cubes _ _ _ _ _ _ _ _ BK) as [EC EA]. fold n in EC. destruct (rin_regions _ _ _ _ _ _ _ _ BK) as [R1 R2]. assert (OK := rin_ok _ _ _ _ FO TC BK). destruct (@c40_labelled lnk2 (rin s b) OK) as (L1 & L2 & L3 & L4). cbn [rin ri_cells ri_cubes] in L1, L2.
  split; [|split; [|split; [|split; [|split]]]].
  - rewrite EC. destruct (gc_tiles GC) as [T1 T2]. split.
    + intros c q p I B. apply renumber_In in I as (k & i & K & _). eapply T1; eauto using nth_error_In.
    + intros p IG U. destruct (T2 p IG U) as ([i q] & [I B] & UQ). apply In_nth_error in I as [k K]. exists (n + Z.of_nat k, q). split; [split; auto; apply renumber_In; eauto|].
      intros [c q'] [I' B']. apply renumber_In in I' as (k' & i' & K' & ->). assert (X := UQ (i', q') (conj (nth_error_In _ _ K') B')). apply pair_equal_spec in X as [-> ->]. f_equal.
      assert (ND := ssorted_NoDup Zcompare_total (proj1 (gc_wf GC))). rewrite NoDup_nth_error in ND. assert (k = k'); [|subst; auto]. apply ND; [rewrite map_length; apply nth_error_Some; congruence|]. rewrite !nth_error_map, K, K'. auto.
  - rewrite EC. unfold renumber, zrange. rewrite map_map, map_length, combine_length, seq_length, Nat.min_id. generalize (factory_cells s (cut3 act) level). intros l. generalize 0%nat. induction l as [|[i q] l IH]; intros k; cbn [length seq combine map]; auto. cbn [fst]. f_equal. apply IH.
  - intros i Hi. destruct (nth_error (bk_cells b) (Z.to_nat i)) as [fi|] eqn:N; [|apply nth_error_None in N; unfold n in Hi; lia]. destruct (L3 i fi) as (k & [A B] & C); [split; [lia|auto]|]. exists k. split; auto. split; auto. rewrite R1. auto.
  - intros i k [A B]. assert (X : (Z.to_nat i < length (bk_regions b))%nat) by (apply nth_error_Some; congruence). rewrite R1, L1 in X. unfold n. lia.
  - intros c. rewrite <- L2, <- R2. unfold cube_label. split; [intros I; apply in_map_iff in I as ([c' k] & <- & I); eauto|intros [k I]; apply (in_map fst) in I; auto].
  - intros c k k' A B. unfold cube_label in A, B. rewrite R2 in A, B. destruct (L4 c k A) as [P Q]. split; auto. symmetry. apply Q. auto.
Qed.
(** Two cut cells have the same label exactly if they lie in the same component of the domain without the input surface. *)
Theorem c128_same_region lnk1 lnk2 ord s act level V fs b i j k l : faces_ok fs -> tiling_case s act level -> bake3 lnk1 lnk2 ord s act level V fs = Some b ->
  cell_label b i k -> cell_label b j l -> (k = l <-> same_component s b i j).
Proof.
  intros FO TC BK A B. destruct (rin_regions _ _ _ _ _ _ _ _ BK) as [R1 R2]. rewrite <- (linked_component _ _ _ _ FO TC BK). eapply c40_same_region; [apply (rin_ok _ _ _ _ FO TC BK)| |]; unfold cut_region; unfold cell_label in *; rewrite R1 in *; eauto.
Qed.
(** An exterior cell has the label of the cut cells in its component, 0 when there are none. *)
Theorem c128_exterior_region lnk1 lnk2 ord s act level V fs b c l : faces_ok fs -> tiling_case s act level -> bake3 lnk1 lnk2 ord s act level V fs = Some b -> cube_label b c l ->
  (forall i k, cell_label b i k -> same_component s b i c -> k = l) /\
  ((forall i k, cell_label b i k -> ~ same_component s b i c) -> l = 0) /\
  (forall i, cell_label b i l -> 0 < l -> same_component s b i c).
Proof.
  intros FO TC BK A. destruct (rin_regions _ _ _ _ _ _ _ _ BK) as [R1 R2]. assert (OK := rin_ok _ _ _ _ FO TC BK). unfold cube_label in A. rewrite R2 in A. destruct (@c40_exterior lnk2 (rin s b) c l OK A) as (X & Y & Z).
  assert (LC := linked_component _ _ _ _ FO TC BK). unfold cell_label. rewrite R1. split; [|split].
  - intros i k B C. apply (X i k B). apply LC; auto.
  - intros H. apply Y. intros i fi HC L. destruct (proj1 (proj2 (proj2 (@c40_labelled lnk2 (rin s b) OK))) i fi HC) as (k & HK & _). apply (H i k); [apply HK|]. apply LC; auto.
  - intros i B P. apply LC. eapply Z; eauto.
Qed.
(** Labels are used without gaps in the order of the cells, 0 for the component of the first cell that has the leftmost grid face. *)
Theorem c128_contiguous lnk1 lnk2 ord s act level V fs b i k l : faces_ok fs -> tiling_case s act level -> bake3 lnk1 lnk2 ord s act level V fs = Some b ->
  cell_label b i k -> 0 < l < k -> exists j, j < i /\ cell_label b j l.
Proof.
  intros FO TC BK A H. destruct (rin_regions _ _ _ _ _ _ _ _ BK) as [R1 R2]. unfold cell_label in *. rewrite R1 in *. eapply c40_contiguous; eauto. apply (rin_ok _ _ _ _ FO TC BK).
Qed.
(** face m, with first mask entry v, is the first of the leftmost faces *)
Definition leftmost_face (s : c3) (b : baked) (m : Z) : Prop :=
  exists g v, In (m, g) (bk_faces b) /\ nth_error (gf_mask g) 0 = Some (Some v) /\ v <= get3 s 0 /\
  forall f h w, In (f, h) (bk_faces b) -> nth_error (gf_mask h) 0 = Some (Some w) -> v < w \/ (v = w /\ m <= f).
Theorem c128_zero lnk1 lnk2 ord s act level V fs b m o : faces_ok fs -> tiling_case s act level -> bake3 lnk1 lnk2 ord s act level V fs = Some b ->
  leftmost_face s b m -> cell_has b o m -> (forall j, cell_has b j m -> o <= j) ->
  (forall i k, cell_label b i k -> (k = 0 <-> same_component s b o i)) /\ (forall c l, cube_label b c l -> same_component s b o c -> l = 0).
Proof.
  intros FO TC BK (g & v & I & M & VS & LM) (fo & so & HO & NO & IO) MIN. destruct (rin_regions _ _ _ _ _ _ _ _ BK) as [R1 R2]. assert (OK := rin_ok _ _ _ _ FO TC BK). assert (LC := linked_component _ _ _ _ FO TC BK).
  assert (HD : forall mm : mask, (match mm with x :: _ => x | [] => None end) = match nth_error mm 0 with Some x => x | None => None end) by (intros [|]; auto).
  assert (OC : outside_cell (rin s b) o).
  { exists m, fo, so. split; [|split; [split; auto|split; auto]].
    - exists (mkRF (gf_mesh g) (gf_ext g) (match gf_mask g with x :: _ => x | [] => None end)), v. cbn [rin ri_faces ri_nx]. split; [apply in_map_iff; exists (m, g); auto|]. split; [cbn [rf_x]; rewrite HD, M; auto|]. split; [lia|].
      intros f y w J W. apply in_map_iff in J as ([f' h] & X & J). apply pair_equal_spec in X as [<- <-]. cbn [rf_x] in W. rewrite HD in W. destruct (nth_error (gf_mask h) 0) as [[w'|]|] eqn:Q; try discriminate. apply Some_inj in W as ->. eapply LM; eauto.
    - intros j fj s' [J1 J2] J3. apply MIN. exists fj, s'. auto. }
  destruct (@c40_zero lnk2 (rin s b) o OK OC) as (X & Y & _). unfold cell_label, cube_label. rewrite R1, R2. split.
  - intros i k A. rewrite (X i k A). apply LC.
  - intros c l A B. eapply Y; eauto. apply LC; auto.
Qed.

(** ** A case: a 2x1x1 grid whose first cell is cut in two halves by the surface face 0 in the plane x = 1/2 *)
Definition ex_vertex (i : Z) : vertex :=
  let p := i / 4 in let q := i mod 4 in
  mkVertex [if p =? 2 then 1 else 0; if (q =? 1) || (q =? 2) then 1 else 0; if 2 <=? q then 1 else 0] [if p =? 1 then Q2Qc (1 # 2) else 0; 0; 0]%Qc [negb (p =? 1); true; true].
Definition ex_side (f : Z) (m : mask) (l : loop) : Z * gface := (f, mkGF [l] m false None).
Definition ex_faces : list (Z * gface) :=
  [(0, mkGF [[4; 5; 6; 7]] [None; None; None] true None);
   ex_side 1 [None; None; Some 0] [0; 1; 5; 4]; ex_side 2 [None; Some 1; None] [1; 2; 6; 5]; ex_side 3 [None; None; Some 1] [2; 3; 7; 6]; ex_side 4 [None; Some 0; None] [3; 0; 4; 7];
   ex_side 5 [None; None; Some 0] [4; 5; 9; 8]; ex_side 6 [None; Some 1; None] [5; 6; 10; 9]; ex_side 7 [None; None; Some 1] [6; 7; 11; 10]; ex_side 8 [None; Some 0; None] [7; 4; 8; 11];
   ex_side 9 [Some 0; None; None] [0; 1; 2; 3]; ex_side 10 [Some 1; None; None] [8; 9; 10; 11]].
Definition ex_ord (e : edge) (l : list Z) : list Z := if edge_eqb e (4, 7) then rev l else l.
Definition ex_act (c : coord) : bool := match c with [x; _; _] => x =? 1 | _ => false end.
Definition ex_baked := bake3 (fun _ _ _ => true) (fun _ _ _ => true) ex_ord (2, 1, 1) ex_act (Some 0) ex_vertex ex_faces.
Example c128_case_ok : faces_ok ex_faces /\ tiling_case (2, 1, 1) ex_act (Some 0).
Proof.
  split; [split; [repeat constructor|]|split; [|auto]].
  - intros f g H. unfold ex_faces, ex_side in H. repeat (destruct H as [H|H]; [injection H as <- <-; cbn; split; [lia|auto]|]). destruct H.
  - intros [|[|[|d]]] Hd; cbn; lia.
Qed.
(** the two halves are the cut cells, with the surface between them; the exterior cell 2 behind face 10 belongs to the right half *)
Example c128_case : exists b, ex_baked = Some b /\ bk_folded b = [] /\
  bk_cells b = [[(0, true); (1, true); (2, true); (3, true); (4, true); (9, false)]; [(0, false); (5, true); (6, true); (7, true); (8, true); (10, true)]] /\
  In (10, mkGF [[8; 9; 10; 11]] [Some 1; None; None] false (Some (1, false))) (bk_faces b) /\ bk_cubes b = [(2, ((1, 0, 0), 1))] /\ bk_regions b = [0; 1] /\ bk_cube_regions b = [(2, 1)].
Proof. eexists. split; [vm_compute; reflexivity|]. cbn. repeat split; auto 20. Qed.
