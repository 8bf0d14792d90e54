(** Property C127: the generator's self-checks. *)
From Verif Require Import Base Num CoordMask CoordMaskSpec CoordMaskProofs Vertex VertexSpec VertexProofs PropsVertex Grid SmallestEdge AdaptiveGrid Volume Queries3 Mesh Hem PropsHem Gen3 PropsGen3 GenChecks.
Set Implicit Arguments.
Local Open Scope Z_scope.

(** ** area_normal *)
Definition half3 (a : q3) : q3 := vscale (/ (1 + 1))%Qc a.
(** Specification: the area vector of the polygon p_0 ... p_(n-1): half the sum of p_i x p_(i+1) *)
Definition vertex_at (V : Z -> q3) (F : list Z) (i : nat) : q3 := V (nth (Nat.modulo i (length F)) F 0).
Definition area_vector (V : Z -> q3) (F : list Z) : q3 := half3 (vsum (map (fun i => cross (vertex_at V F i) (vertex_at V F (i + 1))) (seq 0 (length F)))).
Lemma q3_eq (a b c x y z : Qc) : a = x -> b = y -> c = z -> (a, b, c) = (x, y, z).
Proof. intros -> -> ->. auto. Qed.
Ltac q3ring := repeat match goal with a : q3 |- _ => destruct a as [[? ?] ?] end; cbn [vadd vsub vscale cross half3]; unfold half3; cbn [vscale]; apply q3_eq; ring.
Lemma vadd_0_l a : vadd (0, 0, 0)%Qc a = a.
Proof. q3ring. Qed.
Lemma vsum_map2 (A : Type) (f g : A -> q3) l : vsum (map (fun i => vadd (f i) (g i)) l) = vadd (vsum (map f l)) (vsum (map g l)).
Proof. induction l as [|x l IH]; cbn [map vsum fold_right]; [q3ring|]. fold (vsum (map (fun i => vadd (f i) (g i)) l)) (vsum (map f l)) (vsum (map g l)). rewrite IH. generalize (f x) (g x) (vsum (map f l)) (vsum (map g l)). intros. q3ring. Qed.
Lemma vsum_scale (A : Type) k (f : A -> q3) l : vsum (map (fun i => vscale k (f i)) l) = vscale k (vsum (map f l)).
Proof. induction l as [|x l IH]; cbn [map vsum fold_right]; [cbn [vscale]; apply q3_eq; ring|]. fold (vsum (map (fun i => vscale k (f i)) l)) (vsum (map f l)). rewrite IH. generalize (f x) (vsum (map f l)). intros. q3ring. Qed.
Lemma vsum_app a b : vsum (a ++ b) = vadd (vsum a) (vsum b).
Proof. induction a as [|x a IH]; [symmetry; apply vadd_0_l|]. cbn [app vsum fold_right]. fold (vsum (a ++ b)) (vsum a). rewrite IH. generalize (vsum a) (vsum b). intros. q3ring. Qed.
Lemma vsum_shift (g : nat -> q3) n : g n = g 0%nat -> vsum (map (fun i => g (i + 1)%nat) (seq 0 n)) = vsum (map g (seq 0 n)).
Proof.
  intros E. transitivity (vsum (map g (seq 1 n))). { rewrite <- seq_shift, map_map. f_equal. apply map_ext. intros i. f_equal. lia. }
  destruct n as [|n]; auto. rewrite (seq_S n 1). cbn [seq map]. rewrite map_app, vsum_app. cbn [map Nat.add]. change (1 + n)%nat with (S n). rewrite E. cbn [vsum fold_right]. fold (vsum (map g (seq 1 n))). generalize (vsum (map g (seq 1 n))) (g 0%nat). intros. q3ring.
Qed.
Lemma vertex_at_cycle V F i : vertex_at V F (length F + i) = vertex_at V F i.
Proof. unfold vertex_at. destruct (length F) as [|n] eqn:E; auto. do 2 f_equal. rewrite <- (Nat.mul_1_l (S n)) at 1. rewrite (Nat.add_comm (1 * S n)). apply Nat.mod_add. lia. Qed.
(** Exactly: the result is twice the area vector, less half the sum of p_i x p_(i+2) *)
Theorem c127_area_normal_exactly V F : area_normal V F = vsub (vscale (1 + 1)%Qc (area_vector V F)) (half3 (vsum (map (fun i => cross (vertex_at V F i) (vertex_at V F (i + 2))) (seq 0 (length F))))).
Proof.
  change (area_normal V F) with (half3 (vsum (map (fun i => cross (vsub (vertex_at V F (i + 2)) (vertex_at V F (i + 1))) (vsub (vertex_at V F i) (vertex_at V F (i + 1)))) (seq 0 (length F))))). unfold area_vector. set (p := vertex_at V F).
  assert (S : vsum (map (fun i => cross (vsub (p (i + 2)%nat) (p (i + 1)%nat)) (vsub (p i) (p (i + 1)%nat))) (seq 0 (length F))) =
    vadd (vadd (vsum (map (fun i => cross (p i) (p (i + 1)%nat)) (seq 0 (length F)))) (vsum (map (fun i => cross (p (i + 1)%nat) (p (i + 1 + 1)%nat)) (seq 0 (length F))))) (vscale (- (1))%Qc (vsum (map (fun i => cross (p i) (p (i + 2)%nat)) (seq 0 (length F)))))).
  { rewrite <- vsum_scale, <- !vsum_map2. f_equal. apply map_ext. intros i. replace (i + 1 + 1)%nat with (i + 2)%nat by lia. generalize (p i) (p (i + 1)%nat) (p (i + 2)%nat). intros. q3ring. }
  rewrite S, (vsum_shift (fun i => cross (p i) (p (i + 1)%nat))).
  - generalize (vsum (map (fun i => cross (p i) (p (i + 1)%nat)) (seq 0 (length F)))) (vsum (map (fun i => cross (p i) (p (i + 2)%nat)) (seq 0 (length F)))). intros [[a b] c] [[x y] z]. cbn [vadd vsub vscale half3]. unfold half3. cbn [vscale]. apply q3_eq; field; discriminate.
  - unfold p. rewrite <- (Nat.add_0_r (length F)) at 1. rewrite vertex_at_cycle. f_equal. apply vertex_at_cycle.
Qed.
(** so it is three times the area vector of a triangle and twice that of a quadrilateral *)
Theorem c127_triangle_refuted V a b c : area_normal V [a; b; c] = vscale (1 + 1 + 1)%Qc (area_vector V [a; b; c]).
Proof. unfold area_normal, area_vector, vertex_at, half3. cbn. destruct (V a) as [[? ?] ?], (V b) as [[? ?] ?], (V c) as [[? ?] ?]. cbn [vadd vsub vscale cross]. apply q3_eq; ring. Qed.
Theorem c127_quad_refuted V a b c d : area_normal V [a; b; c; d] = vscale (1 + 1)%Qc (area_vector V [a; b; c; d]).
Proof. unfold area_normal, area_vector, vertex_at, half3. cbn. destruct (V a) as [[? ?] ?], (V b) as [[? ?] ?], (V c) as [[? ?] ?], (V d) as [[? ?] ?]. cbn [vadd vsub vscale cross]. apply q3_eq; ring. Qed.
Definition tri_V (i : Z) : q3 := (if i =? 0 then (0, 0, 0) else if i =? 1 then (1, 0, 0) else (0, 1, 0))%Qc.
Example c127_area_case : area_vector tri_V [0; 1; 2] = (0, 0, Q2Qc (1 # 2))%Qc /\ area_normal tri_V [0; 1; 2] = (0, 0, Q2Qc (3 # 2))%Qc.
Proof. split; apply q3_eq; apply Qc_is_canon; vm_compute; reflexivity. Qed.

(** ** check_face_utilization *)
(** Specification: a cell uses the face *)
Definition used (cells : list (list (Z * bool))) (f : Z) : Prop := exists c s, In c cells /\ In (f, s) c.
(** the face has a loop in a grid plane of axis i whose least edge, as oriented by the loop, was recorded for an input triangle lying in such a plane *)
Definition on_input (prim : nat -> list edge) (m : mask) (loops : list (list Z)) : Prop :=
  exists i k v, (i < 3)%nat /\ nth_error m i = Some (Some k) /\ In v loops /\ In (smallest_ordered_edge v) (prim i).
Lemma exempt_spec prim m loops : exempt prim m loops = true <-> on_input prim m loops.
Proof.
  unfold exempt, on_input. rewrite existsb_exists. split.
  - intros (v & I & E). apply existsb_exists in E as (i & Ii & E). destruct (nth_error m i) as [[k|]|] eqn:M; try discriminate. exists i, k, v. split; [cbn in Ii; lia|]. split; auto. split; auto. apply edge_mem_In; auto.
  - intros (i & k & v & Hi & M & I & E). exists v. split; auto. apply existsb_exists. exists i. split; [cbn; lia|]. rewrite M. apply edge_mem_In; auto.
Qed.
Lemma unused_In prim fs cells f : In f (unused_faces prim fs cells) <-> (exists m loops, In (f, (m, loops)) fs /\ ~ on_input prim m loops) /\ ~ used cells f.
Proof.
  unfold unused_faces. assert (G : forall es S, In f (fold_left (fun S e => filter (fun x => negb (x =? fst e)) S) es S) <-> In f S /\ ~ exists s : bool, In (f, s) es).
  { induction es as [|[k s] es IH]; intros S; cbn [fold_left]; [split; [intros H; split; auto; intros (s & [])|intros [H _]; auto]|]. rewrite IH, filter_In. cbn [fst]. split.
    - intros [[A B] C]. split; auto. intros (s' & [E|E]); [|eauto]. apply pair_equal_spec in E as [-> _]. rewrite Z.eqb_refl in B. discriminate.
    - intros [A C]. split; [split; auto|].
      + destruct (Z.eqb_spec f k) as [->|]; auto. exfalso. apply C. exists s. left. auto.
      + intros (s' & E). apply C. exists s'. right. auto. }
  rewrite G, (set_of_list_In Zcompare_total), in_map_iff. split.
  - intros [((k & m & loops) & E & I) N]. cbn [fst] in E. subst k. apply filter_In in I as [I X]. apply negb_true_iff in X. split.
    + exists m, loops. split; auto. rewrite <- exempt_spec. congruence.
    + intros (c & s & Ic & Is). apply N. exists s. apply in_concat. eauto.
  - intros [(m & loops & I & X) N]. split.
    + exists (f, (m, loops)). split; auto. apply filter_In. split; auto. apply negb_true_iff. rewrite <- exempt_spec in X. destruct (exempt prim m loops); congruence.
    + intros (s & H). apply N. apply in_concat in H as (c & Ic & Is). exists c, s. auto.
Qed.
(** Exactly: accepted when every face is used by a cell or coincides with an input triangle as recorded *)
Theorem c127_utilization_exactly prim fs cells : check_face_utilization prim fs cells = true <-> forall f m loops, In (f, (m, loops)) fs -> used cells f \/ on_input prim m loops.
Proof.
  unfold check_face_utilization. assert (U := unused_In prim fs cells). assert (DEC : forall f, {used cells f} + {~ used cells f}).
  { intros f. destruct (existsb (fun c => existsb (fun e : Z * bool => fst e =? f) c) cells) eqn:E; [left|right].
    - apply existsb_exists in E as (c & Ic & E). apply existsb_exists in E as ((k & s) & Is & E). apply Z.eqb_eq in E. cbn in E. subst k. exists c, s. auto.
    - intros (c & s & Ic & Is). assert (T : existsb (fun c => existsb (fun e : Z * bool => fst e =? f) c) cells = true); [|congruence]. apply existsb_exists. exists c. split; auto. apply existsb_exists. exists (f, s). split; auto. apply Z.eqb_refl. }
  destruct (unused_faces prim fs cells) as [|x l] eqn:E; split; auto.
  - intros _ f m loops I. destruct (DEC f) as [|N]; [auto|right]. destruct (exempt prim m loops) eqn:X; [apply exempt_spec; auto|]. exfalso. assert (J : In f []); [|destruct J]. apply U. split; auto. exists m, loops. split; auto. rewrite <- exempt_spec. congruence.
  - discriminate.
  - intros H. exfalso. destruct (proj1 (U x) (or_introl eq_refl)) as [(m & loops & I & N1) N2]. destruct (H _ _ _ I); auto.
Qed.
(** REFUTED as a check that every face is used: with the sets of the generator (C100's axial faces), a face cut from an active input triangle that lies in a grid plane and looks along the positive axis
    is never reported, used or not *)
Theorem c127_plane_faces_refuted active N cfs fs cells f : In f cfs -> active (mcf_parent f) = true -> forall i k j, (i < 3)%nat -> nth_error (mcf_mask f) i = Some (Some k) -> (0 < N (mcf_parent f) i)%Qc ->
  check_face_utilization (axial_primal active N cfs) fs cells = check_face_utilization (axial_primal active N cfs) ((j, (mcf_mask f, [mcf_loop f])) :: fs) cells.
Proof.
  intros I A i k j Hi M P. apply Bool.eq_iff_eq_true. rewrite !c127_utilization_exactly. split.
  - intros H g m loops [E|J]; [|eauto]. apply pair_equal_spec in E as [-> E]. apply pair_equal_spec in E as [<- <-]. right. exists i, k, (mcf_loop f). split; auto. split; auto. split; [left; auto|]. apply axial_primal_In. exists f, k.
    repeat (split; auto). apply qltb_lt in P. rewrite P. auto.
  - intros H g m loops J. apply H with (m := m) (loops := loops). right. auto.
Qed.
(** ... while the same triangle looking the other way is reported, unless its reversed loop happens to have the same least edge *)
Theorem c127_plane_faces_partial active N f cells i k j : active (mcf_parent f) = true -> (i < 3)%nat -> nth_error (mcf_mask f) i = Some (Some k) -> (forall l, l <> i -> ~ exists z, nth_error (mcf_mask f) l = Some (Some z)) ->
  (N (mcf_parent f) i <= 0)%Qc -> smallest_ordered_edge (mcf_loop f) <> smallest_ordered_edge_reverse (mcf_loop f) -> ~ used cells j ->
  check_face_utilization (axial_primal active N [f]) [(j, (mcf_mask f, [mcf_loop f]))] cells = false.
Proof.
  intros A Hi M O P NE NU. destruct (check_face_utilization _ _ _) eqn:E; auto. exfalso. rewrite c127_utilization_exactly in E. destruct (E j (mcf_mask f) [mcf_loop f] (or_introl eq_refl)) as [U|(l & z & v & Hl & Ml & [<-|[]] & X)]; [auto|].
  destruct (Nat.eq_dec l i) as [->|NI]; [|apply (O l NI); eauto]. apply axial_primal_In in X as (f' & z' & [<-|[]] & _ & _ & X). apply qltb_ge in P. rewrite P in X. auto.
Qed.
Definition flat_tri (a : Z) : mesh_cut_face := mkMCF [0; 1; a] 0 [None; None; Some 2].
Example c127_utilization_case : let up := fun (_ : Z) (_ : nat) => 1%Qc in let down := fun (_ : Z) (_ : nat) => (- (1))%Qc in let fs := [(0, ([None; None; Some 2], [[0; 1; 3]])); (1, ([None; Some 4; None], [[5; 6; 7]]))] in
  check_face_utilization (axial_primal (fun _ => true) up [flat_tri 3]) fs [[(1, true)]] = true /\ check_face_utilization (axial_primal (fun _ => true) down [flat_tri 3]) fs [[(1, true)]] = false /\
  check_face_utilization (axial_primal (fun _ => true) down [flat_tri 3]) fs [[(1, true)]; [(0, false); (1, false)]] = true /\ check_face_utilization (axial_primal (fun _ => true) up [flat_tri 3]) fs [] = false.
Proof. vm_compute. auto. Qed.

(** ** check_cell_containment *)
(** Specification: some grid cell, closed, contains all vertices of the face *)
Definition fits (V : Z -> vertex) (loops : list (list Z)) : Prop := exists x, forall l i, In l loops -> In i l -> in_closed_cell x (pos (V i)).
Theorem c127_containment_exactly D V (fs : list (Z * (mask * list (list Z)))) : (forall f m loops l, In (f, (m, loops)) fs -> In l loops -> l <> []) -> (forall f m loops l i, In (f, (m, loops)) fs -> In l loops -> In i l -> v_wf D (V i) /\ normalised (V i)) ->
  exists b, check_cell_containment V fs = Some b /\ (b = true <-> forall f m loops, In (f, (m, loops)) fs -> loops = [] \/ fits V loops).
Proof.
  intros NE W. unfold check_cell_containment. assert (G : forall (l : list (Z * (mask * list (list Z)))) r, incl l fs -> exists b, fold_left (fun acc '(_, (_, loops)) => match acc, is_in_cell2 V loops with
    | Some r, Some true => Some r | Some r, Some false => Some (match loops with [] => r | _ => false end) | _, _ => None end) l (Some r) = Some b /\ (b = true <-> r = true /\ forall f m loops, In (f, (m, loops)) l -> loops = [] \/ fits V loops)).
  { induction l as [|[f [m loops]] l IH]; intros r I; cbn [fold_left]; [exists r; split; auto; split; [intros; split; auto; intros f m loops []|tauto]|].
    assert (I0 : In (f, (m, loops)) fs) by (apply I; left; auto). assert (IL : incl l fs) by (intros x Hx; apply I; right; auto).
    destruct (@c06_generator_loops V D loops (fun l0 i H1 H2 => W f m loops l0 i I0 H1 H2)) as [G1 G2]. unfold is_in_cell2. destruct (gen_possible_cells2 V loops) as [S|] eqn:ES.
    2:{ exfalso. destruct (proj1 G1 eq_refl) as [t ->]. apply (NE f m ([] :: t) [] I0); cbn; auto. }
    cbn [option_map]. assert (FT : loops <> [] -> (fits V loops <-> S <> [])).
    { intros NL. unfold fits. split; [intros (x & Hx); apply (G2 S eq_refl NL) in Hx; destruct S; [contradiction|discriminate]|]. destruct S as [|x S]; [congruence|]. intros _. exists x. apply (G2 (x :: S) eq_refl NL). left; auto. }
    destruct S as [|x S].
    - destruct loops as [|l0 ls].
      + destruct (IH r IL) as (b & E & H). exists b. split; auto. rewrite H. split; intros [A B]; split; auto; intros g mm ll; [intros [Q|J]|intros J]; eauto.
        * apply pair_equal_spec in Q as [_ Q]. apply pair_equal_spec in Q as [_ <-]. auto.
        * eapply B. right. eauto.
      + destruct (IH false IL) as (b & E & H). exists b. split; auto. rewrite H. split; [intros [A _]; discriminate|]. intros [_ B]. exfalso. destruct (B f m (l0 :: ls) (or_introl eq_refl)) as [Q|Q]; [discriminate|]. apply FT in Q; [congruence|discriminate].
    - destruct (IH r IL) as (b & E & H). exists b. split; auto. rewrite H. split; intros [A B]; split; auto; intros g mm ll; [intros [Q|J]|intros J].
      + apply pair_equal_spec in Q as [_ Q]. apply pair_equal_spec in Q as [_ <-]. destruct loops as [|l0 ls]; [auto|right]. apply FT; discriminate.
      + eapply B; eauto.
      + eapply B. right. eauto. }
  destruct (G fs true ltac:(intros x; auto)) as (b & E & H). exists b. split; auto. rewrite H. tauto.
Qed.
Definition vint (x y z : Z) : vertex := mkVertex [x; y; z] [0; 0; 0]%Qc [false; false; false].
Example c127_containment_case : check_cell_containment (fun i => vint i 0 0) [(0, ([None; Some 0; Some 0], [[0; 1]]))] = Some true /\ check_cell_containment (fun i => vint i 0 0) [(0, ([None; Some 0; Some 0], [[0; 1; 2]]))] = Some false.
Proof. vm_compute. auto. Qed.

(** ** face_mask *)
(** a face's mask binds axis d to k exactly when every vertex does *)
Lemma fold_mask_binds (A : Type) (g : A -> mask) D l : forall m, length m = D -> (forall x, In x l -> length (g x) = D) ->
  length (fold_left (fun m x => mask_and m (g x)) l m) = D /\ forall d k, binds (fold_left (fun m x => mask_and m (g x)) l m) d k <-> binds m d k /\ forall x, In x l -> binds (g x) d k.
Proof.
  induction l as [|x l IH]; intros m L H; cbn [fold_left]; [split; auto; intros; split; [intros; split; auto; intros y []|tauto]|].
  assert (Lx : length (g x) = D) by (apply H; left; auto). destruct (IH (mask_and m (g x))) as [A1 B].
  - rewrite mask_and_length; congruence.
  - intros; apply H; right; auto.
  - split; auto. intros d k. rewrite B, mask_and_binds by congruence. split; [intros [[P Q] R]; split; auto; intros y [<-|J]; auto|intros [P Q]; split; [split; auto; apply Q; left; auto|]; intros y J; apply Q; right; auto].
Qed.
Lemma binds_none D d k : ~ binds (repeat None D) d k.
Proof. unfold binds. revert d. induction D as [|D IH]; intros [|d]; cbn; try discriminate. apply IH. Qed.
Theorem c127_face_mask D M (fs : list (list Z)) : (forall l i, In l fs -> In i l -> length (M i) = D) ->
  length (gen_face_masks D M fs) = D /\ forall d k, binds (gen_face_masks D M fs) d k <-> fs <> [] /\ (forall l, In l fs -> l <> []) /\ forall l i, In l fs -> In i l -> binds (M i) d k.
Proof.
  intros H. assert (F : forall l, In l fs -> length (gen_face_mask D M l) = D /\ forall d k, binds (gen_face_mask D M l) d k <-> l <> [] /\ forall i, In i l -> binds (M i) d k).
  { intros l I. destruct l as [|i t]; cbn [gen_face_mask].
    - split; [apply repeat_length|]. intros d k. split; [intros B; destruct (@binds_none _ _ _ B)|intros [N _]; congruence].
    - destruct (@fold_mask_binds Z M D t (M i)) as [A B]; [apply (H _ _ I); left; auto|intros x J; apply (H _ _ I); right; auto|]. split; auto. intros d k. rewrite B. split; [intros [P Q]; split; [discriminate|]; intros x [<-|J]; auto|].
      intros [_ Q]. split; [apply Q; left; auto|intros x J; apply Q; right; auto]. }
  destruct fs as [|f t]; cbn [gen_face_masks].
  - split; [apply repeat_length|]. intros d k. split; [intros B; destruct (@binds_none _ _ _ B)|intros [N _]; congruence].
  - destruct (@fold_mask_binds _ (gen_face_mask D M) D t (gen_face_mask D M f)) as [A B]; [apply F; left; auto|intros x J; apply F; right; auto|]. split; auto. intros d k. rewrite B. split.
    + intros [P Q]. assert (X : forall l, In l (f :: t) -> l <> [] /\ forall i, In i l -> binds (M i) d k). { intros l I. apply (proj2 (F l I)). destruct I as [<-|I]; auto. }
      split; [discriminate|]. split; [intros l I; apply X, I|intros l i I; apply X, I].
    + intros (_ & P & Q). split; [apply F; [left; auto|]; split; [apply P; left; auto|intros i; apply Q; left; auto]|]. intros l I. apply F; [right; auto|]. split; [apply P; right; auto|intros i; apply Q; right; auto].
Qed.
