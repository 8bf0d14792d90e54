(** Properties C24-C30, C39, C54-C58: AdaptiveGrid and construction::AdaptiveGridFactory. *)
From Verif Require Import Base Num Grid SmallestEdge SmallestEdgeProofs AdaptiveGrid AdaptiveFactory AdaptiveSpec AdaptiveProofs AdaptiveFaces
  AdaptiveFactoryProofs AdaptiveMore.
From Coq Require Import Permutation.
Local Open Scope Z_scope.

(** ** C24 *)
Lemma lg_cube k : (0 <= Z.of_nat k) -> lg (cube3 (2 ^ Z.of_nat k)) = k.
Proof. intros H. unfold lg, cube3, max_side. rewrite !Z.max_id, Z.log2_up_pow2 by lia. apply Nat2Z.id. Qed.
Lemma top_lt shape m : 0 <= m < Z.of_nat (lg shape) -> (top_level shape (Some m) < lg shape)%nat.
Proof. intros H. unfold top_level. rewrite (proj2 (Z.leb_le _ _)), (proj2 (Z.ltb_lt _ _)) by lia. cbn [andb]. lia. Qed.

(** For every mask on a grid of side 2^k (k >= 1), and every max level: provided the level limit is below k or some cell is active, the
    factory's cells are disjoint aligned power-of-two cubes inside the grid, made of inactive unit cells, covering every inactive unit cell once. *)
Theorem c24_cells_tile_the_inactive_region_partial k (original : c3 -> bool) ml :
  (1 <= k)%nat -> let shape := cube3 (2 ^ Z.of_nat k) in
  (exists m, ml = Some m /\ 0 <= m < Z.of_nat k) \/ (exists p, in_grid shape p /\ original p = true) ->
  tiles shape (fun p => original p = false) (factory_cells shape original ml) /\
  wf_cells shape (factory_cells shape original ml) /\ disjoint_cells (factory_cells shape original ml) /\
  forall i b, In (i, b) (factory_cells shape original ml) -> dyadic b /\ i = index3 shape (fst b) /\ forall m, ml = Some m -> 0 <= m < Z.of_nat k -> snd b <= 2 ^ m.
Proof.
  intros Hk shape HA. assert (EK : lg shape = k) by (apply lg_cube; lia). assert (HK : (1 <= lg shape)%nat) by lia.
  assert (ES : shape = cube3 (pow2 (lg shape))) by (rewrite EK; reflexivity). clearbody shape.
  set (E := emit_cells shape original ml).
  assert (PB : forall x p, In x E -> in_box x p -> in_grid shape p).
  { intros x p Hx Hp. rewrite ES. apply (emit_padded shape original ml x p); auto. intros d Hd. rewrite ES at 1. destruct d as [|[|[|d]]]; cbn; lia. }
  assert (PW : forall x, In x E -> exists l c, (l < lg shape)%nat /\ (l <= top_level shape ml)%nat /\ x = lcell l c).
  { intros x Hx. apply emit_cells_In in Hx as (l & c & ? & ? & ? & _); auto. exists l, c; auto. }
  assert (CB : forall x, In x E -> in_box x (fst x)).
  { intros x Hx d Hd. destruct (PW x Hx) as (l & c & _ & _ & ->). unfold lcell; cbn [fst snd]. assert (X := pow2_pos l). lia. }
  destruct (factory_In shape original ml) as [F1 F2].
  { intros a b Ha Hb EE. apply (emit_unique shape original ml a b (fst a)); auto. rewrite EE. apply CB; auto. }
  { intros a Ha. apply (PB a); auto. }
  assert (T : forall x, in_grid shape x -> original x = false -> exists! ib, In ib (factory_cells shape original ml) /\ in_box (snd ib) x).
  { intros p G HP. destruct (emit_cover shape original ml p) as (x & Hx & Bx); auto.
    - rewrite ES in G. exact G.
    - intros [_ H]. congruence.
    - destruct HA as [(m & -> & Hm)|(q & Gq & Hq)]; [left; apply top_lt; lia|right; exists q; split; [split; auto|]]. rewrite ES in Gq. exact Gq.
    - exists (index3 shape (fst x), x). split; [split; auto; apply F2; auto|]. intros [j y] [Hj Hy]. cbn [snd] in Hy. apply F2 in Hj as [Hj ->].
      assert (x = y) by (eapply emit_unique; eauto). subst. auto. }
  split; [split; auto|].
  { intros i b p Hb Hp. apply F2 in Hb as [Hb ->]. split; [apply (PB b); auto|]. destruct (original p) eqn:EO; auto. exfalso.
    apply (emit_inactive shape original ml b p); auto. split; auto. apply (PB b); auto. }
  split; [split; auto|].
  { intros i b Hb. apply F2 in Hb as [Hb ->]. split; [apply index3_nonneg, (PB b); auto|]. split; [|intros p; apply PB; auto].
    destruct (PW b Hb) as (l & c & _ & _ & ->). apply pow2_pos. }
  split.
  { intros i a j b p Ha Hb Pa Pb. apply F2 in Ha as [Ha ->], Hb as [Hb ->]. f_equal. f_equal. eapply emit_unique; eauto. }
  intros i b Hb. apply F2 in Hb as [Hb ->]. destruct (PW b Hb) as (l & c & L & LT & ->). split; [|split; auto].
  - exists (Z.of_nat l). split; [lia|]. split; auto. intros d Hd. unfold lcell; cbn [fst]. change (2 ^ Z.of_nat l) with (pow2 l).
    destruct c as [[x y] z]. destruct d as [|[|[|d]]]; cbn [get3 scale3]; try lia; apply Z.divide_factor_l.
  - intros m -> Hm. unfold lcell, pow2; cbn [snd]. apply Z.pow_le_mono_r; [lia|]. unfold top_level in LT. rewrite EK, (proj2 (Z.leb_le _ _)), (proj2 (Z.ltb_lt _ _)) in LT by lia.
    cbn [andb] in LT. lia.
Qed.
(** coarsening is maximal: a cell below the level limit has an active unit cell in the block of twice its width around it *)
Theorem c24_coarsest_cells k (original : c3 -> bool) ml i c w :
  (1 <= k)%nat -> let shape := cube3 (2 ^ Z.of_nat k) in
  (exists m, ml = Some m /\ 0 <= m < Z.of_nat k) \/ (exists p, in_grid shape p /\ original p = true) ->
  In (i, (c, w)) (factory_cells shape original ml) -> (forall m, ml = Some m -> 0 <= m < Z.of_nat k -> w < 2 ^ m) ->
  exists q, in_grid shape q /\ original q = true /\ forall d, (d < 3)%nat -> get3 q d / (2 * w) = get3 c d / (2 * w).
Proof.
  intros Hk shape HA HI HW. assert (EK : lg shape = k) by (apply lg_cube; lia). assert (HK : (1 <= lg shape)%nat) by lia.
  assert (ES : shape = cube3 (pow2 (lg shape))) by (rewrite EK; reflexivity). clearbody shape.
  assert (HE : In (c, w) (emit_cells shape original ml)).
  { assert (CB : forall x, In x (emit_cells shape original ml) -> in_box x (fst x)).
    { intros x Hx d Hd. apply emit_cells_In in Hx as (l & e & _ & _ & -> & _); auto. unfold lcell; cbn [fst snd]. assert (X := pow2_pos l). lia. }
    destruct (factory_In shape original ml) as [F1 F2].
    - intros a b Ha Hb EE. apply (emit_unique shape original ml a b (fst a)); auto. rewrite EE. apply CB; auto.
    - intros a Ha. rewrite ES. apply (emit_padded shape original ml a (fst a)); auto. intros d Hd. rewrite ES at 1. destruct d as [|[|[|d]]]; cbn; lia.
    - apply F2 in HI. apply HI. }
  apply emit_cells_In in HE as (l & e & L1 & L2 & E & NA & H); auto. unfold lcell in E. apply pair_equal_spec in E as [-> ->].
  assert (NT : l <> top_level shape ml).
  { unfold top_level. rewrite EK in *. destruct ml as [m|]; [|lia]. destruct (Z.leb_spec 0 m), (Z.ltb_spec m (Z.of_nat k)); cbn [andb]; try lia.
    specialize (HW m eq_refl ltac:(lia)). unfold pow2 in HW. apply Z.pow_lt_mono_r_iff in HW; lia. }
  rewrite (proj2 (Nat.eqb_neq _ _)) in H by auto. destruct H as [_ (q & [G Hq] & E)]. exists q. split; auto. split; auto. intros d Hd.
  rewrite <- pow2_S. assert (P := pow2_pos l).
  assert (X : get3 (div3 (S l) q) d = get3 (div3 1 e) d) by congruence. destruct q as [[q1 q2] q3], e as [[e1 e2] e3].
  assert (Y : forall t, pow2 l * t / pow2 (S l) = t / 2). { intros t. rewrite pow2_S, (Z.mul_comm 2). apply Z.div_mul_cancel_l; lia. }
  destruct d as [|[|[|d]]]; try lia; cbn [get3 div3 scale3] in *; rewrite Y; exact X.
Qed.
(** a max level of 0 gives exactly the inactive unit cells, for every grid *)
Theorem c24_level_zero shape (original : c3 -> bool) i c w :
  (forall d, (d < 3)%nat -> 0 < get3 shape d) ->
  In (i, (c, w)) (factory_cells shape original (Some 0)) <-> w = 1 /\ i = index3 shape c /\ in_grid shape c /\ original c = false.
Proof.
  intros PS. assert (EM : forall x, In x (emit_cells shape original (Some 0)) <-> snd x = 1 /\ in_grid shape (fst x) /\ original (fst x) = false).
  { intros [a b]. unfold emit_cells. assert (1 <= level_count shape)%nat by (unfold level_count; lia). destruct (level_count shape); [lia|].
    cbn [seq emit_levels Z.eqb Z.of_nat]. unfold mask_cells. rewrite in_flat_map. change (pow2 0) with 1. cbn [fst snd]. split.
    - intros (p & Hp & HH). apply loop3_In in Hp. destruct (original p) eqn:E; [destruct HH|]. destruct HH as [HH|[]]. apply pair_equal_spec in HH as [<- <-].
      assert (S1 : scale3 1 p = p) by (destruct p as [[x y] z]; cbn [scale3]; rewrite !Z.mul_1_l; auto). rewrite S1. split; auto. split; auto.
      unfold in_grid. rewrite all3. exact Hp.
    - intros (-> & G & E). exists a. split; [apply loop3_In; unfold in_grid in G; rewrite all3 in G; exact G|]. rewrite E. left.
      destruct a as [[x y] z]; cbn [scale3]; rewrite !Z.mul_1_l; auto. }
  destruct (factory_In shape original (Some 0)) as [_ F].
  - intros [a u] [b v] Ha Hb. apply EM in Ha as [E1 _], Hb as [E2 _]. cbn in *. congruence.
  - intros a Ha. apply EM in Ha. tauto.
  - rewrite F, EM. cbn [fst snd]. tauto.
Qed.
(** C24 as stated (sides divisible by 2^levels) is false: with a 2x4x4 grid and level limit 1 a cell lies outside the grid; *)
Theorem c24_refuted_non_cubic :
  let shape := (2, 4, 4) in exists i b p, In (i, b) (factory_cells shape (fun _ => false) (Some 1)) /\ in_box b p /\ ~ in_grid shape p.
Proof.
  cbv zeta. exists 32, ((2, 0, 0), 2), (2, 0, 0). split; [vm_compute; tauto|]. split.
  - unfold in_box. rewrite all3. cbn. lia.
  - unfold in_grid. rewrite all3. cbn. lia.
Qed.
(** and without a level limit a grid with no active cell gets no cell at all *)
Theorem c24_refuted_nothing_active k : (1 <= k)%nat -> factory_cells (cube3 (2 ^ Z.of_nat k)) (fun _ => false) None = [].
Proof.
  intros Hk. set (shape := cube3 _). unfold factory_cells. assert (E : emit_cells shape (fun _ => false) None = []).
  { assert (EK : lg shape = k) by (apply lg_cube; lia).
    destruct (emit_cells shape (fun _ => false) None) as [|x l] eqn:E; auto. exfalso. assert (H : In x (emit_cells shape (fun _ => false) None)) by (rewrite E; simpl; auto).
    apply emit_cells_In in H as (l' & c & _ & L & _ & _ & H); [|lia]. unfold top_level in H. rewrite (proj2 (Nat.eqb_neq _ _)) in H by lia.
    destruct H as [_ (p & [_ H] & _)]. discriminate. }
  rewrite E. reflexivity.
Qed.
(** a 4x4x4 grid with one active corner cell: seven unit cells and seven cells of width 2 *)
Example c24_example : let cs := factory_cells (4, 4, 4) (fun p => c3_eqb p (0, 0, 0)) None in
  length cs = 14%nat /\ In (1, ((0, 0, 1), 1)) cs /\ In (42, ((2, 2, 2), 2)) cs.
Proof. vm_compute. intuition. Qed.

(** ** C25 *)
Theorem c25_ownership_grid shape cells p : wf_cells shape cells -> disjoint_cells cells ->
  (forall i, 0 <= i -> (grid_from_cells cells p = i <-> owns cells i p)) /\ (grid_from_cells cells p = -1 <-> forall i, ~ owns cells i p).
Proof.
  intros W D. split; [intros i Hi; apply (gfc_owner shape); auto|].
  assert (N := gfc_nonneg cells p (fun i b H => proj1 (proj2 W i b H))). split.
  - intros E i Hi. rewrite E in N. assert (0 <= -1) by (apply N; eauto). lia.
  - intros H. destruct (gfc_spec cells (fun i b H => proj1 (proj2 W i b H)) p) as [(pre & j & b & post & E & HB & _ & _)|[_ E]]; auto.
    exfalso. apply (H j). exists b. split; auto. rewrite E, in_app_iff. simpl; auto.
Qed.
(** with overlapping cells the lowest id wins *)
Theorem c25_overlap_lowest_id_wins cells i b p : ssorted Z.compare (map fst cells) -> (forall i b, In (i, b) cells -> 0 <= i) ->
  In (i, b) cells -> in_box b p -> (forall j c, In (j, c) cells -> in_box c p -> i <= j) -> grid_from_cells cells p = i.
Proof.
  intros S P HI HB HL. destruct (gfc_spec cells P p) as [(pre & j & c & post & E & HC & HP & ->)|[H _]]; [|exfalso; eapply H; eauto].
  assert (HJ : In (j, c) cells) by (rewrite E, in_app_iff; simpl; auto). specialize (HL j c HJ HC). rewrite E in HI. apply in_app_iff in HI as [HI|[HI|HI]].
  - exfalso. eapply HP; eauto.
  - congruence.
  - rewrite E, map_app in S. cbn [map fst] in S. assert (j < i); [|lia]. clear - S HI. induction (map fst pre) as [|a l IH]; cbn [app] in S.
    + inversion S as [|? ? F _]; subst. rewrite Forall_forall in F. apply (in_map fst) in HI. apply F in HI. exact HI.
    + apply IH. inversion S; auto.
Qed.
Definition two_cells : acells := [(0, ((0, 0, 0), 2)); (5, ((2, 0, 0), 1))].
Lemma two_cells_wf : wf_cells (4, 2, 2) two_cells /\ disjoint_cells two_cells /\ forall i b, In (i, b) two_cells -> dyadic b.
Proof.
  split; [split|split].
  - repeat constructor.
  - intros i b [[= <- <-]|[[= <- <-]|[]]]; (split; [lia|split; [cbn; lia|]]); intros p; unfold in_box, in_grid; rewrite !all3; cbn; lia.
  - intros i a j b p [[= <- <-]|[[= <- <-]|[]]] [[= <- <-]|[[= <- <-]|[]]]; auto; unfold in_box; rewrite !all3; cbn; lia.
  - intros i b [[= <- <-]|[[= <- <-]|[]]]; [exists 1|exists 0]; (split; [lia|split; [reflexivity|]]); rewrite all3; cbn; repeat split; try apply Z.divide_0_r; try apply Z.divide_1_l; apply Z.divide_refl.
Qed.
Example c25_example : grid_from_cells two_cells (1, 1, 0) = 0 /\ grid_from_cells two_cells (2, 0, 0) = 5 /\ grid_from_cells two_cells (3, 0, 0) = -1.
Proof. vm_compute; auto. Qed.

(** ** C26 *)
(** a and b meet along axis d: two different cells own consecutive unit cells, or b owns a unit cell at the low end (a = -2), or a one at the high end (b = -2) *)
Definition meet (shape : c3) (cells : acells) (d : nat) (a b : Z) : Prop :=
  (a <> b /\ exists x, owns cells a x /\ owns cells b (add3 x d 1)) \/
  (a = -2 /\ exists x, owns cells b x /\ get3 x d = 0) \/
  (b = -2 /\ exists x, owns cells a x /\ get3 x d = get3 shape d - 1).
Theorem c26_one_face_per_meeting_pair shape cells : pos3 shape -> wf_cells shape cells -> disjoint_cells cells ->
  NoDup (map (fun f => (af_axis f, af_dual f)) (make_faces shape cells)) /\
  (forall f, In f (make_faces shape cells) -> (af_axis f < 3)%nat) /\
  forall d a b, (d < 3)%nat -> (exists f, In f (make_faces shape cells) /\ af_axis f = d /\ af_dual f = (a, b)) <-> meet shape cells d a b.
Proof.
  intros PS W D. split; [apply faces_NoDup|]. split; [intros f Hf; apply faces_In in Hf; apply Hf|]. intros d a b Hd. apply faces_exist; auto.
Qed.
(** the square of a face is exactly where its two cells touch (dyadic cells) *)
Theorem c26_face_geometry shape cells f a b : pos3 shape -> wf_cells shape cells -> disjoint_cells cells -> (forall i c, In (i, c) cells -> dyadic c) ->
  In f (make_faces shape cells) -> af_dual f = (a, b) ->
  forall y, on_square (af_corner f) (af_axis f) (af_width f) y <->
    (if a =? -2 then owns cells b y /\ get3 y (af_axis f) = 0
     else if b =? -2 then owns cells a (add3 y (af_axis f) (-1)) /\ get3 y (af_axis f) = get3 shape (af_axis f)
     else owns cells a (add3 y (af_axis f) (-1)) /\ owns cells b y).
Proof. intros PS W D DY Hf E. assert (G := face_geometry shape cells PS W D DY f Hf). rewrite E in G. exact G. Qed.
Example c26_example : map (fun f => (af_axis f, af_dual f, af_corner f, af_width f)) (make_faces (4, 2, 2) two_cells) =
  [(0%nat, (-2, 0), (0, 0, 0), 2); (0%nat, (0, 5), (2, 0, 0), 1); (1%nat, (-2, 0), (0, 0, 0), 2); (1%nat, (-2, 5), (2, 0, 0), 1);
   (1%nat, (0, -2), (0, 2, 0), 2); (2%nat, (-2, 0), (0, 0, 0), 2); (2%nat, (-2, 5), (2, 0, 0), 1); (2%nat, (0, -2), (0, 0, 2), 2)].
Proof. vm_compute. reflexivity. Qed.
Example c26_hypotheses : pos3 (4, 2, 2) /\ wf_cells (4, 2, 2) two_cells /\ disjoint_cells two_cells /\ forall i c, In (i, c) two_cells -> dyadic c.
Proof. split; [intros [|[|[|d]]] Hd; cbn; lia|]. apply two_cells_wf. Qed.

(** ** C27 *)
Definition col_sum (id : Z) (t : list (Z * Z * Qc)) : Qc := fold_right (fun '(_, c, v) s => (if (c =? id)%Z then v + s else s)%Qc) 0%Qc t.
Definition inv_cube (w : Z) : Qc := (/ (Z2Qc w * Z2Qc w * Z2Qc w))%Qc.
Lemma col_sum_cons id r c v t : col_sum id ((r, c, v) :: t) = (if (c =? id)%Z then v + col_sum id t else col_sum id t)%Qc.
Proof. reflexivity. Qed.
Lemma col_sum_app id t u : (col_sum id (t ++ u) = col_sum id t + col_sum id u)%Qc.
Proof.
  induction t as [|[[r c] v] t IH]; [symmetry; apply Qcplus_0_l|]. change (col_sum id ((r, c, v) :: t ++ u) = col_sum id ((r, c, v) :: t) + col_sum id u)%Qc.
  rewrite !col_sum_cons, IH. destruct (c =? id); ring.
Qed.
Lemma col_sum_const id shape v (l : list c3) : col_sum id (map (fun a => (index3 shape a, id, v)) l) = (Z2Qc (Z.of_nat (length l)) * v)%Qc.
Proof.
  induction l as [|a l IH]; [change (0 = 0 * v)%Qc; ring|]. cbn [map]. rewrite col_sum_cons, Z.eqb_refl, IH.
  cbn [length]. rewrite Nat2Z.inj_succ. unfold Z.succ. rewrite Z2Qc_plus. change (Z2Qc 1) with 1%Qc. ring.
Qed.
Lemma col_sum_other id c shape v (l : list c3) : c <> id -> col_sum id (map (fun a => (index3 shape a, c, v)) l) = 0%Qc.
Proof. intros N. induction l as [|a l IH]; auto. cbn [map]. rewrite col_sum_cons, (proj2 (Z.eqb_neq _ _)) by auto. exact IH. Qed.
Lemma NoDup_map_in (A B : Type) (f : A -> B) l : (forall x y, In x l -> In y l -> f x = f y -> x = y) -> NoDup l -> NoDup (map f l).
Proof.
  induction l as [|a l IH]; intros H ND; cbn; [constructor|]. inversion ND; subst. constructor.
  - intros K. apply in_map_iff in K as (x & E & Hx). apply H in E; cbn; auto. subst. contradiction.
  - apply IH; auto. intros; apply H; cbn; auto.
Qed.
Theorem c27_projection_entries shape cells : wf_cells shape cells -> disjoint_cells cells ->
  (forall r c v, In (r, c, v) (grid_cell_projection shape cells) <-> exists b p, In (c, b) cells /\ in_box b p /\ r = index3 shape p /\ v = inv_cube (snd b)) /\
  NoDup (map fst (map fst (grid_cell_projection shape cells))).
Proof.
  intros [W1 W2] D. split.
  - intros r c v. unfold grid_cell_projection. rewrite in_flat_map. split.
    + intros ([i b] & Hi & H). apply in_map_iff in H as (p & E & Hp). apply pair_equal_spec in E as [E <-]. apply pair_equal_spec in E as [<- <-].
      exists b, p. apply box_In in Hp. auto.
    + intros (b & p & Hb & Hp & -> & ->). exists (c, b). split; auto. apply in_map_iff. exists p. split; auto. apply box_In; auto.
  - unfold grid_cell_projection. rewrite !map_flat_map. assert (ND : NoDup cells) by (assert (W := W1); apply (ssorted_NoDup Zcompare_total) in W; eapply NoDup_map_inv; eauto).
    apply NoDup_flat_map; auto.
    + intros [i b] Hi. rewrite !map_map. cbn [fst snd]. apply NoDup_map_in; [|apply loop3_NoDup]. intros x y Hx Hy E. apply box_In in Hx, Hy.
      eapply index3_inj; eauto; eapply (proj2 (proj2 (W2 i b Hi))); eauto.
    + intros [i a] [j b] r Hi Hj H1 H2. rewrite !map_map in H1, H2. apply in_map_iff in H1 as (x & <- & Hx), H2 as (y & E & Hy). cbn [fst snd] in *. apply box_In in Hx, Hy.
      assert (x = y). { eapply index3_inj; eauto; [eapply (proj2 (proj2 (W2 i a Hi))); eauto|eapply (proj2 (proj2 (W2 j b Hj))); eauto]. } subst y.
      assert (i = j) by (eapply D; eauto). subst j.
      apply (map_find_Some Zcompare_total) in Hi, Hj; auto. f_equal. congruence.
Qed.
Lemma Z2Qc_nz w : w <> 0 -> Z2Qc w <> 0%Qc.
Proof. intros H E. apply H. change 0%Qc with (Z2Qc 0) in E. apply Z2Qc_inj in E. exact E. Qed.
(** each cell has w^3 entries and they sum to one *)
Theorem c27_projection_averages shape cells i b : wf_cells shape cells -> In (i, b) cells ->
  col_sum i (grid_cell_projection shape cells) = 1%Qc /\
  Z.of_nat (length (filter (fun '(_, c, _) => c =? i) (grid_cell_projection shape cells))) = snd b * snd b * snd b.
Proof.
  intros [W1 W2] Hi. assert (PW := W2 i b Hi). assert (NDK := ssorted_NoDup Zcompare_total W1). clear W1.
  assert (N0 : forall cs, ~ In i (map fst cs) -> col_sum i (grid_cell_projection shape cs) = 0%Qc /\ filter (fun '(_, c, _) => c =? i) (grid_cell_projection shape cs) = []).
  { induction cs as [|[j c] cs IH]; intros N; [split; reflexivity|]. cbn [map fst In] in N. unfold grid_cell_projection in *. cbn [flat_map].
    destruct IH as [I1 I2]; [tauto|]. rewrite col_sum_app, filter_app, I1, I2, col_sum_other by tauto. split; [ring|]. rewrite app_nil_r.
    induction (box_coords c) as [|x l IL]; auto. cbn [map filter]. rewrite (proj2 (Z.eqb_neq _ _)) by tauto. exact IL. }
  induction cells as [|[j c] cells IH]; [destruct Hi|]. cbn [map fst] in NDK. inversion NDK as [|? ? N ND]; subst.
  unfold grid_cell_projection in *. cbn [flat_map]. rewrite col_sum_app, filter_app, app_length, Nat2Z.inj_add. destruct Hi as [[= -> ->]|Hi].
  - destruct (N0 _ N) as [-> ->]. rewrite col_sum_const. cbn [length]. assert (L := box_len b ltac:(lia)). rewrite L. split.
    + rewrite !Z2Qc_mult, Qcmult_comm. rewrite Qcplus_comm, Qcplus_0_l. apply Qcmult_inv_l. rewrite <- !Z2Qc_mult. apply Z2Qc_nz. nia.
    + rewrite Z.add_0_r, <- L. f_equal. clear. induction (box_coords b) as [|x l IL]; auto. cbn [map filter]. rewrite Z.eqb_refl. cbn [length]. auto.
  - assert (j <> i). { intros ->. apply N. apply in_map_iff. exists (i, b). auto. }
    rewrite col_sum_other by auto. destruct IH as [I1 I2]; auto. { intros; apply W2; simpl; auto. } rewrite I1. split; [ring|]. rewrite I2.
    assert (E : filter (fun '(_, c0, _) => c0 =? i) (map (fun a : c3 => (index3 shape a, j, (/ (Z2Qc (snd c) * Z2Qc (snd c) * Z2Qc (snd c)))%Qc)) (box_coords c)) = []).
    { clear - H. induction (box_coords c) as [|x l IL]; auto. cbn [map filter]. rewrite (proj2 (Z.eqb_neq _ _)) by auto. exact IL. }
    rewrite E. reflexivity.
Qed.
Example c27_example : length (grid_cell_projection (4, 2, 2) two_cells) = 9%nat /\ In (8, 5, 1%Qc) (grid_cell_projection (4, 2, 2) two_cells).
Proof.
  split; [reflexivity|]. apply (proj1 (c27_projection_entries (4, 2, 2) two_cells (proj1 two_cells_wf) (proj1 (proj2 two_cells_wf)))).
  exists ((2, 0, 0), 1), (2, 0, 0). split; [right; left; reflexivity|]. split; [unfold in_box; rewrite all3; cbn; lia|]. split; [reflexivity|]. apply Qc_is_canon. reflexivity.
Qed.

(** ** C28 *)
Theorem c28_cell_round_trip c : cell_from_proto (cell_serialize c) = c.
Proof. destruct c; reflexivity. Qed.
(** Square and Face do not survive: axis and width come back exchanged *)
Theorem c28_square_face_exact_result s e :
  square_from_proto (square_serialize s) = (sq_corner s, sq_width s, sq_axis s) /\ face_from_proto (face_serialize (s, e)) = ((sq_corner s, sq_width s, sq_axis s), e).
Proof. destruct s as [[c a] w]. split; reflexivity. Qed.
Theorem c28_square_face_round_trip_iff_partial s e :
  (square_from_proto (square_serialize s) = s <-> sq_axis s = sq_width s) /\ (face_from_proto (face_serialize (s, e)) = (s, e) <-> sq_axis s = sq_width s).
Proof.
  destruct (c28_square_face_exact_result s e) as [-> ->]. destruct s as [[c a] w]. unfold sq_corner, sq_width, sq_axis. cbn [fst snd].
  split; split; intros H; try (subst; reflexivity); injection H; auto.
Qed.
Theorem c28_refuted : exists s, square_from_proto (square_serialize s) <> s.
Proof. exists (((0, 0, 0), 2), 4). vm_compute. congruence. Qed.

(** ** C29 *)
Definition det3 (a b c : c3) : Z := let '(x, y, z) := a in let '(u, v, w) := b in let '(p, q, r) := c in x * (v * r - w * q) - y * (u * r - w * p) + z * (u * q - v * p).
Definition tri_edges (t : c3 * c3 * c3) : list (c3 * c3) := let '(a, b, c) := t in [(a, b); (b, c); (c, a)].
Definition volume6 (ts : list (c3 * c3 * c3)) : Z := fold_right (fun '(a, b, c) s => det3 a b c + s) 0 ts.
Definition is_corner (c : acell) (p : c3) : Prop := forall d, (d < 3)%nat -> get3 p d = get3 (fst c) d \/ get3 p d = get3 (fst c) d + snd c.
Definition itri_edges (t : nat * nat * nat) : list (nat * nat) := let '(a, b, c) := t in [(a, b); (b, c); (c, a)].
Definition nn_dec (a b : nat * nat) : {a = b} + {a <> b}.
Proof. decide equality; apply Nat.eq_dec. Defined.
Lemma cube_inj c i j : snd c <> 0 -> (i < 8)%nat -> (j < 8)%nat -> cube_corner c i = cube_corner c j -> i = j.
Proof.
  destruct c as [[[x y] z] w]. cbn [snd]. intros Hw Hi Hj.
  do 8 (destruct i as [|i]; [do 8 (destruct j as [|j]; [cbn [cube_corner cell_vertex plus3 fst snd]; intros E; apply c3_inj in E; try reflexivity; exfalso; lia|]); lia|]). lia.
Qed.
Theorem c29_closed_outward_surface c : 0 < snd c ->
  (forall a b d, In (a, b, d) (triangulated c) -> is_corner c a /\ is_corner c b /\ is_corner c d) /\
  (forall p, is_corner c p -> exists a b d, In (a, b, d) (triangulated c) /\ (p = a \/ p = b \/ p = d)) /\
  NoDup (flat_map tri_edges (triangulated c)) /\
  (forall u v, In (u, v) (flat_map tri_edges (triangulated c)) <-> In (v, u) (flat_map tri_edges (triangulated c))) /\
  volume6 (triangulated c) = 6 * (snd c * snd c * snd c).
Proof.
  intros Hw.
  assert (FE : flat_map tri_edges (triangulated c) = map (fun '(i, j) => (cube_corner c i, cube_corner c j)) (flat_map itri_edges cube_tris)) by reflexivity.
  assert (BD : forall i j, In (i, j) (flat_map itri_edges cube_tris) -> (i < 8)%nat /\ (j < 8)%nat).
  { intros i j H. assert (F : forallb (fun '(i, j) => Nat.ltb i 8 && Nat.ltb j 8) (flat_map itri_edges cube_tris) = true) by reflexivity.
    rewrite forallb_forall in F. apply F in H. apply andb_true_iff in H as [H1 H2]. apply Nat.ltb_lt in H1, H2. auto. }
  split; [|split; [|split; [|split]]].
  - intros a b d H. unfold triangulated, cube_tris in H. cbn [map] in H.
    assert (C : forall i, is_corner c (cube_corner c i)).
    { intros i. unfold is_corner. rewrite all3. destruct c as [[[x y] z] w]. do 8 (destruct i as [|i]; [cbn [cube_corner cell_vertex plus3 fst snd get3]; lia|]). cbn [cube_corner cell_vertex plus3 fst snd get3]; lia. }
    repeat (destruct H as [H|H]; [apply pair_equal_spec in H as [H <-]; apply pair_equal_spec in H as [<- <-]; auto|]). destruct H.
  - intros p Hp. assert (EX : exists i, (i < 8)%nat /\ p = cube_corner c i).
    { unfold is_corner in Hp. rewrite all3 in Hp. destruct c as [[[x y] z] w], p as [[a b] d]. cbn [fst snd get3] in Hp. destruct Hp as (H0 & H1 & H2).
      destruct H0 as [->| ->], H1 as [->| ->], H2 as [->| ->]; [exists 0%nat|exists 7%nat|exists 3%nat|exists 4%nat|exists 1%nat|exists 6%nat|exists 2%nat|exists 5%nat];
        (split; [lia|]); cbn [cube_corner cell_vertex plus3 fst snd]; f_equal; [f_equal|..]; try ring; try (f_equal; ring). }
    destruct EX as (i & Hi & ->). destruct i as [|[|[|[|[|[|[|[|i]]]]]]]]; [| | | | | | | |lia];
      [exists (cube_corner c 0), (cube_corner c 2), (cube_corner c 1)|exists (cube_corner c 0), (cube_corner c 2), (cube_corner c 1)|exists (cube_corner c 0), (cube_corner c 2), (cube_corner c 1)|
       exists (cube_corner c 0), (cube_corner c 3), (cube_corner c 2)|exists (cube_corner c 5), (cube_corner c 4), (cube_corner c 7)|exists (cube_corner c 5), (cube_corner c 4), (cube_corner c 7)|
       exists (cube_corner c 1), (cube_corner c 5), (cube_corner c 6)|exists (cube_corner c 5), (cube_corner c 4), (cube_corner c 7)];
      (split; [unfold triangulated, cube_tris; cbn [map In]; tauto|tauto]).
  - rewrite FE. apply NoDup_map_in.
    + intros [i j] [i' j'] H1 H2 E. apply BD in H1, H2. apply pair_equal_spec in E as [E1 E2]. apply cube_inj in E1; [|lia|tauto|tauto]. apply cube_inj in E2; [|lia|tauto|tauto]. congruence.
    + assert (D : forall l : list (nat * nat), (if list_eq_dec nn_dec (nodup nn_dec l) l then true else false) = true -> NoDup l).
      { intros l H. destruct (list_eq_dec _ _ _) as [E|]; [|discriminate]. rewrite <- E. apply NoDup_nodup. }
      apply D. vm_compute. reflexivity.
  - assert (SY : forall i j, In (i, j) (flat_map itri_edges cube_tris) -> In (j, i) (flat_map itri_edges cube_tris)).
    { intros i j H. assert (F : forallb (fun '(i, j) => existsb (fun '(a, b) => Nat.eqb a j && Nat.eqb b i) (flat_map itri_edges cube_tris)) (flat_map itri_edges cube_tris) = true) by reflexivity.
      rewrite forallb_forall in F. apply F in H. apply existsb_exists in H as ([a b] & H & E). apply andb_true_iff in E as [E1 E2]. apply Nat.eqb_eq in E1, E2. subst. auto. }
    rewrite FE. intros u v. split; intros H; apply in_map_iff in H as ([i j] & E & H); apply pair_equal_spec in E as [<- <-]; apply in_map_iff; exists (j, i); split; auto.
  - destruct c as [[[x y] z] w]. unfold triangulated, cube_tris. cbn [map volume6 fold_right cube_corner cell_vertex plus3 fst snd det3]. ring.
Qed.
Example c29_example : let c : acell := ((2, 4, 6), 2) in 0 < snd c /\ volume6 (triangulated c) = 48.
Proof. vm_compute. auto. Qed.

(** ** C30: the helper never writes entries 1-3, and entry 0 is the corner (0,1), at offset 1 rather than the width *)
Theorem c30_refuted vidx c axis sign : nth 1 (cell_face_helper vidx c axis sign) None = None /\ nth 2 (cell_face_helper vidx c axis sign) None = None /\
  nth 3 (cell_face_helper vidx c axis sign) None = None.
Proof. repeat split. Qed.
Theorem c30_entry_zero_partial vidx c axis sign : (axis < 3)%nat ->
  nth 0 (cell_face_helper vidx c axis sign) None = Some (vidx (add3 (if sign then add3 (fst c) axis 1 else fst c) (Nat.modulo (axis + 2) 3) 1)).
Proof.
  intros Ha. cbn [nth cell_face_helper]. f_equal. f_equal. destruct c as [[[x y] z] w]. destruct axis as [|[|[|a]]]; try lia; destruct sign; cbn; f_equal; try (f_equal; lia); lia.
Qed.

(** ** C39 *)
(** exact behaviour: -2 outside [0, n+1], else the first cell containing p, else -1 *)
Definition inside_cell (b : acell) (p : q3) : Prop :=
  let '((a, b', c), w) := b in let '(x, y, z) := p in
  ((Z2Qc a <= x /\ x < Z2Qc (a + w)) /\ (Z2Qc b' <= y /\ y < Z2Qc (b' + w)) /\ (Z2Qc c <= z /\ z < Z2Qc (c + w)))%Qc.
Definition in_range (n : c3) (k : Z) (p : q3) : Prop :=
  let '(a, b, c) := n in let '(x, y, z) := p in ((0 <= x /\ x <= Z2Qc (a + k)) /\ (0 <= y /\ y <= Z2Qc (b + k)) /\ (0 <= z /\ z <= Z2Qc (c + k)))%Qc.
Lemma is_inside_spec b p : is_inside b p = true <-> inside_cell b p.
Proof.
  destruct b as [[[a b] c] w], p as [[x y] z]. unfold is_inside, inside_cell, qge0. rewrite !andb_true_iff, !negb_true_iff, !qltb_ge, !qltb_lt. tauto.
Qed.
Lemma out_test n p : (let '(a, b, c) := n in let '(x, y, z) := p in
   (qltb x 0 || qltb y 0 || qltb z 0) || (qltb (Z2Qc (a + 1)) x || qltb (Z2Qc (b + 1)) y || qltb (Z2Qc (c + 1)) z)) = false <-> in_range n 1 p.
Proof. destruct n as [[a b] c], p as [[x y] z]. unfold in_range. rewrite !orb_false_iff, !qltb_ge. tauto. Qed.
Lemma inside_floor b x y z : inside_cell b (x, y, z) -> in_box b (qfloor x, qfloor y, qfloor z).
Proof.
  destruct b as [[[a b] c] w]. unfold inside_cell, in_box. rewrite all3. cbn [fst snd get3].
  assert (F : forall (k : Z) t, (Z2Qc k <= t /\ t < Z2Qc (k + w))%Qc -> k <= qfloor t < k + w).
  { intros k t [H1 H2]. destruct (qfloor_spec t) as [F1 F2]. split.
    - assert (H : (Z2Qc k < Z2Qc (qfloor t + 1))%Qc) by (rewrite Z2Qc_plus, Z2Qc_1; eapply Qcle_lt_trans; eauto). apply (proj1 (Z2Qc_lt _ _)) in H. lia.
    - apply Z2Qc_lt. eapply Qcle_lt_trans; eauto. }
  intros (H1 & H2 & H3). auto.
Qed.
Theorem c39_point_location_partial shape cells p : wf_cells shape cells -> disjoint_cells cells ->
  (get_cell_index shape cells p = -2 <-> ~ in_range shape 1 p) /\
  (forall i, 0 <= i -> (get_cell_index shape cells p = i <-> in_range shape 1 p /\ exists b, In (i, b) cells /\ inside_cell b p)) /\
  (in_range shape 1 p -> (get_cell_index shape cells p = -1 <-> forall i b, In (i, b) cells -> ~ inside_cell b p)).
Proof.
  intros [_ W] D. assert (O := out_test shape p). unfold get_cell_index. destruct shape as [[n m] k], p as [[x y] z].
  destruct (_ || _) eqn:E.
  - assert (NR : ~ in_range (n, m, k) 1 (x, y, z)) by (intros H; apply O in H; discriminate). split; [tauto|]. split; [intros i Hi; split; [lia|tauto]|]. tauto.
  - assert (R : in_range (n, m, k) 1 (x, y, z)) by (apply O; auto). destruct (find _ cells) as [[i b]|] eqn:F.
    + apply find_some in F as [F1 F2]. apply is_inside_spec in F2. assert (PI := proj1 (W i b F1)). split; [split; [lia|tauto]|].
      split; [|intros _; split; [lia|intros H; exfalso; eapply H; eauto]]. intros j Hj. split; [intros <-; eauto|]. intros (_ & c & Hc & HC).
      apply inside_floor in F2, HC. eapply D; eauto.
    + assert (N : forall i b, In (i, b) cells -> ~ inside_cell b (x, y, z)). { intros i b Hi H. apply (find_none _ _ F) in Hi. apply is_inside_spec in H. congruence. }
      split; [split; [lia|tauto]|]. split; [|tauto]. intros i Hi. split; [lia|]. intros (_ & b & Hb & HB). exfalso. eapply N; eauto.
Qed.
(** refuted as stated: a point up to one cell beyond the grid is reported as -1, not -2 *)
Theorem c39_refuted : exists shape cells p, wf_cells shape cells /\ ~ in_range shape 0 p /\ get_cell_index shape cells p <> -2.
Proof.
  exists (4, 2, 2), two_cells, (Z2Qc 5, Z2Qc 1, Z2Qc 1). split; [apply two_cells_wf|]. split; [|vm_compute; congruence].
  intros (H & _). destruct H as [_ H]. revert H. unfold Qcle. cbn. intros H. apply H. reflexivity.
Qed.
Example c39_example : get_cell_index (4, 2, 2) two_cells (Z2Qc 2, qhalf, qhalf) = 5.
Proof. vm_compute. reflexivity. Qed.
