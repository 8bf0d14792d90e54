(** C46: histories of the deforming-geometry constructor. *)
From Verif Require Import Base Num CoordMask Vertex Deform.
Local Open Scope Z_scope.

(** *** specification: the latest inputs after a history *)
Record latest := mkL { l_V : list pt; l_F : list tri; l_g : grid; l_level : Z }.
Definition apply_call (l : latest) (c : call) : latest :=
  match c with
  | UpdVertices V _ => mkL V (l_F l) (l_g l) (l_level l)
  | UpdTopology F => mkL (l_V l) F (l_g l) (l_level l)
  | UpdMesh V F _ => mkL V F (l_g l) (l_level l)
  | UpdGrid g => mkL (l_V l) (l_F l) g (l_level l)
  | SetAdaptivity n => mkL (l_V l) (l_F l) (l_g l) n
  | Bake => l
  end.
Definition latest_after (l : latest) (h : list call) : latest := fold_left apply_call h l.
Definition sets_vertices (c : call) : bool := match c with UpdVertices _ _ | UpdMesh _ _ _ => true | _ => false end.
Definition sets_grid (c : call) : bool := match c with UpdGrid _ => true | _ => false end.
Definition only_topology (c : call) : bool := match c with UpdTopology _ => true | _ => false end.
Definition marks (c : call) : bool := match c with UpdTopology _ | Bake => false | _ => true end.
Definition is_bake (c : call) : bool := match c with Bake => true | _ => false end.
(** every change of the grid is followed by a new set of vertices *)
Definition grid_then_vertices (h : list call) : Prop := forall h1 g h2, h = h1 ++ UpdGrid g :: h2 -> exists c, In c h2 /\ sets_vertices c = true.
(** every update_topology shares its bake with (or is followed by) an update that marks the constructor dirty *)
Definition topology_marked (h : list call) : Prop := forall h1 F h2, h = h1 ++ UpdTopology F :: h2 ->
  (exists c, In c h2 /\ marks c = true) \/ (exists a c b, h1 = a ++ c :: b /\ marks c = true /\ forall x, In x b -> is_bake x = false).
(** the number of vertices never changes, and vertex updates use the default threshold *)
Definition same_size (n : nat) (h : list call) : Prop := forall c, In c h -> match c with UpdVertices V _ | UpdMesh V _ _ => length V = n | _ => True end.
Definition default_thr (h : list call) : Prop := forall c, In c h -> match c with UpdVertices _ t | UpdMesh _ _ t => exists q, t = Some q /\ qltb q 0 = true | _ => True end.

Definition dflt : option Qc := Some (Q2Qc (-1 # 1)).
Lemma convert_default g t q : t = Some q -> qltb q 0 = true -> forall p, convert g t p = convert g dflt p.
Proof. intros -> H p. unfold convert, mythresh, dflt. rewrite H. reflexivity. Qed.
Lemma skipn_same (A B : Type) (V : list A) (m : list B) : length m = length V -> skipn (length V) m = [].
Proof. intros <-. apply skipn_all. Qed.

Section H.
  Variables (V0 : list pt) (F0 : list tri) (g0 : grid) (n0 : Z) (t0 : option Qc).
  Let d0 := ctor V0 F0 g0 n0 t0.
  Let l0 := mkL V0 F0 g0 n0.
  Lemma ctor_eq V F g n t : d_in (ctor V F g n t) = mkIn g (map (convert g dflt) V) F n /\ d_baked (ctor V F g n t) = mkIn g (map (convert g dflt) V) F n /\ d_origV (ctor V F g n t) = V /\ d_dirty (ctor V F g n t) = false.
  Proof. unfold ctor, gen_update_vertices. cbn. rewrite skipn_same by apply map_length. rewrite app_nil_r. auto. Qed.
  (** vertices are those converted with grid gv, which is the current grid unless a grid update came after the last vertex update *)
  Lemma run_inv h : same_size (length V0) h -> default_thr h ->
    let d := run d0 h in let l := latest_after l0 h in
    in_F (d_in d) = l_F l /\ in_grid (d_in d) = l_g l /\ in_level (d_in d) = l_level l /\ d_origV d = l_V l /\ length (in_mV (d_in d)) = length V0 /\ length (l_V l) = length V0 /\
    (exists gv, in_mV (d_in d) = map (convert gv dflt) (l_V l) /\ (gv = l_g l \/ exists h1 g h2, h = h1 ++ UpdGrid g :: h2 /\ forall c, In c h2 -> sets_vertices c = false)) /\
    (d_dirty d = false -> d_baked d = d_in d \/ exists h1 F h2, h = h1 ++ UpdTopology F :: h2 /\ (forall c, In c h2 -> marks c = false) /\
       forall a c b, h1 = a ++ c :: b -> marks c = true -> exists x, In x b /\ is_bake x = true) /\
    (d_dirty d = true <-> exists a c b, h = a ++ c :: b /\ marks c = true /\ forall x, In x b -> is_bake x = false).
  Proof.
    induction h as [|c h IH] using rev_ind; intros SZ DT d l.
    - destruct (ctor_eq V0 F0 g0 n0 t0) as (E1 & E2 & E3 & E4). subst d l. cbn [run latest_after fold_left]. unfold d0. rewrite E1, E2, E3, E4. cbn. rewrite map_length. do 6 (split; [auto|]). split; [|split; [auto|]].
      + exists g0. auto.
      + split; [discriminate|]. intros ([|? ?] & ? & ? & [=] & _).
    - assert (SZ' : same_size (length V0) h) by (intros x Hx; apply SZ, in_or_app; auto). assert (DT' : default_thr h) by (intros x Hx; apply DT, in_or_app; auto).
      destruct (IH SZ' DT') as (I1 & I2 & I3 & I4 & I5 & I6 & (gv & I7 & I8) & I9 & I10). clear IH.
      assert (SC := SZ c (in_or_app h [c] c (or_intror (or_introl eq_refl)))). assert (DC := DT c (in_or_app h [c] c (or_intror (or_introl eq_refl)))).
      subst d l. unfold run, latest_after in *. rewrite !fold_left_app in *. cbn [fold_left]. set (d := fold_left step h d0) in *. set (l := fold_left apply_call h l0) in *.
      (* dirty after a marking call *)
      assert (MK : marks c = true -> exists a c0 b, h ++ [c] = a ++ c0 :: b /\ marks c0 = true /\ forall x, In x b -> is_bake x = false) by (intros M; exists h, c, []; repeat split; auto; intros x []).
      assert (EXT : is_bake c = false -> (exists a c0 b, h = a ++ c0 :: b /\ marks c0 = true /\ forall x, In x b -> is_bake x = false) -> exists a c0 b, h ++ [c] = a ++ c0 :: b /\ marks c0 = true /\ forall x, In x b -> is_bake x = false).
      { intros NB (a & c0 & b & -> & H1 & H2). exists a, c0, (b ++ [c]). rewrite <- app_assoc. repeat split; auto. intros x Hx. apply in_app_or in Hx as [Hx|[<-|[]]]; auto. }
      assert (SPL : forall a c0 b, h ++ [c] = a ++ c0 :: b -> (b = [] /\ a = h /\ c0 = c) \/ exists b', b = b' ++ [c] /\ h = a ++ c0 :: b').
      { intros a c0 b E. destruct b as [|z b _] using rev_ind; [apply app_inj_tail in E as [<- <-]; auto|]. right. change (a ++ c0 :: b ++ [z]) with (a ++ (c0 :: b) ++ [z]) in E. rewrite app_assoc in E. apply app_inj_tail in E as [-> <-]. eauto. }
      assert (CONV : forall V t, length V = length V0 -> (exists q, t = Some q /\ qltb q 0 = true) -> map (convert (in_grid (d_in d)) t) V ++ skipn (length V) (in_mV (d_in d)) = map (convert (l_g l) dflt) V).
      { intros V t LV (q & Et & Hq). rewrite skipn_same by lia. rewrite app_nil_r, I2. apply map_ext. intros p. eapply convert_default; eauto. }
      destruct c as [V t|F|V F t|g|n|]; cbn [step upd_v upd_t set_dirty gen_update_vertices apply_call d_in d_origV d_dirty d_baked in_grid in_mV in_F in_level l_V l_F l_g l_level] in *.
      + rewrite CONV by auto. do 6 (split; [auto; try (rewrite map_length; auto)|]). split; [exists (l_g l); auto|]. split; [discriminate|]. split; auto.
      + do 6 (split; [auto|]). split; [|split].
        * exists gv. split; auto. destruct I8 as [->|(h1 & g & h2 & -> & H)]; auto. right. exists h1, g, (h2 ++ [UpdTopology F]). rewrite <- app_assoc. split; auto. intros c Hc. apply in_app_or in Hc as [Hc|[<-|[]]]; auto.
        * intros ND. right. exists h, F, []. split; auto. split; [intros c []|]. intros a c b E M. destruct (existsb is_bake b) eqn:EB; [apply existsb_exists in EB as (x & H1 & H2); eauto|]. exfalso. assert (D : d_dirty d = true); [|congruence]. apply I10. exists a, c, b. split; auto. split; auto. intros x Hx. destruct (is_bake x) eqn:Bx; auto. assert (existsb is_bake b = true) by (apply existsb_exists; eauto). congruence.
        * split; [intros D; apply I10 in D; auto|]. intros (a & c0 & b & E & M & NB). apply I10. destruct (SPL _ _ _ E) as [(-> & -> & ->)|(b' & -> & ->)]; [discriminate|]. exists a, c0, b'. split; auto. split; auto. intros x Hx. apply NB, in_or_app; auto.
      + rewrite CONV by auto. do 6 (split; [auto; try (rewrite map_length; auto)|]). split; [exists (l_g l); auto|]. split; [discriminate|]. split; auto.
      + do 6 (split; [auto|]). split; [exists gv; split; auto; right; exists h, g, []; split; auto; intros c []|]. split; [discriminate|]. split; auto.
      + do 6 (split; [auto|]). split; [|split; [discriminate|split; auto]]. exists gv. split; auto. destruct I8 as [->|(h1 & g & h2 & -> & H)]; auto. right. exists h1, g, (h2 ++ [SetAdaptivity n]). rewrite <- app_assoc. split; auto. intros c Hc. apply in_app_or in Hc as [Hc|[<-|[]]]; auto.
      + assert (G : forall e, e = d_in d -> in_F e = l_F l /\ in_grid e = l_g l /\ in_level e = l_level l /\ d_origV d = l_V l /\ length (in_mV e) = length V0 /\ length (l_V l) = length V0 /\ (exists gv, in_mV e = map (convert gv dflt) (l_V l) /\ (gv = l_g l \/ exists h1 g h2, h ++ [Bake] = h1 ++ UpdGrid g :: h2 /\ forall c, In c h2 -> sets_vertices c = false))).
        { intros e ->. do 6 (split; [auto|]). exists gv. split; auto. destruct I8 as [->|(h1 & g & h2 & -> & H)]; auto. right. exists h1, g, (h2 ++ [Bake]). rewrite <- app_assoc. split; auto. intros c Hc. apply in_app_or in Hc as [Hc|[<-|[]]]; auto. }
        assert (ND : forall P : Prop, (exists a c b, h ++ [Bake] = a ++ c :: b /\ marks c = true /\ forall x, In x b -> is_bake x = false) -> P).
        { intros P (a & c0 & b & E & M & NB). exfalso. destruct (SPL _ _ _ E) as [(-> & -> & ->)|(b' & -> & ->)]; [discriminate|]. assert (is_bake Bake = false) by (apply NB, in_or_app; cbn; auto). discriminate. }
        destruct (d_dirty d) eqn:D; cbn [d_in d_origV d_dirty d_baked].
        * destruct (G _ eq_refl) as (G1 & G2 & G3 & G4 & G5 & G6 & G7). do 6 (split; [auto|]). split; [auto|]. split; [auto|]. split; [discriminate|apply ND].
        * destruct (G _ eq_refl) as (G1 & G2 & G3 & G4 & G5 & G6 & G7). do 6 (split; [auto|]). split; [auto|]. rewrite D. split; [|split; [discriminate|apply ND]]. intros _. destruct (I9 eq_refl) as [B|(h1 & F & h2 & -> & H1 & H2)]; auto. right. exists h1, F, (h2 ++ [Bake]). rewrite <- app_assoc. split; auto. split; auto. intros c Hc. apply in_app_or in Hc as [Hc|[<-|[]]]; auto.
  Qed.
End H.

(** C46 *)
(** after any history in which grid updates are followed by vertex updates, topology updates come with a marking update, the vertex count is fixed and the default
    threshold is used, bake and emit return what a fresh constructor on the latest inputs returns *)
Theorem c46_fresh_partial : forall (M : Type) (gen : inputs -> M) V0 F0 g0 n0 t0 h t, same_size (length V0) h -> default_thr h -> grid_then_vertices h -> topology_marked h ->
  let l := latest_after (mkL V0 F0 g0 n0) h in emit gen (run (ctor V0 F0 g0 n0 t0) (h ++ [Bake])) = emit gen (ctor (l_V l) (l_F l) (l_g l) (l_level l) t).
Proof.
  intros M gen V0 F0 g0 n0 t0 h t SZ DT GV TM l. destruct (run_inv V0 F0 g0 n0 t0 h SZ DT) as (I1 & I2 & I3 & I4 & I5 & I6 & (gv & I7 & I8) & I9 & _). fold l in I1, I2, I3, I4, I5, I6, I7, I8, I9.
  destruct (ctor_eq (l_V l) (l_F l) (l_g l) (l_level l) t) as (E1 & E2 & E3 & _). unfold emit. rewrite E1, E2, E3. cbn [in_grid in_F].
  unfold run in *. rewrite fold_left_app. cbn [fold_left step]. set (d := fold_left step h (ctor V0 F0 g0 n0 t0)) in *.
  assert (EI : d_in d = mkIn (l_g l) (map (convert (l_g l) dflt) (l_V l)) (l_F l) (l_level l)).
  { assert (Eg : gv = l_g l). { destruct I8 as [E|(h1 & g & h2 & E & H)]; auto. exfalso. destruct (GV _ _ _ E) as (c & Hc & Hs). rewrite (H c Hc) in Hs. discriminate. } subst gv. rewrite <- I7, <- I1, <- I2, <- I3. destruct (d_in d); auto. }
  assert (EB : d_baked (if d_dirty d then mkD (d_in d) (d_origV d) false (d_in d) else d) = d_in d).
  { destruct (d_dirty d) eqn:D; auto. destruct (I9 eq_refl) as [B|(h1 & F & h2 & E & H1 & H2)]; auto. exfalso. destruct (TM _ _ _ E) as [(c & Hc & Hm)|(a & c & b & -> & Hm & NB)].
    - rewrite (H1 c Hc) in Hm. discriminate.
    - destruct (H2 a c b eq_refl Hm) as (x & Hx & Bx). rewrite (NB x Hx) in Bx. discriminate. }
  rewrite EB, EI. assert (O : d_origV (if d_dirty d then mkD (mkIn (l_g l) (map (convert (l_g l) dflt) (l_V l)) (l_F l) (l_level l)) (d_origV d) false (mkIn (l_g l) (map (convert (l_g l) dflt) (l_V l)) (l_F l) (l_level l)) else d) = l_V l) by (destruct (d_dirty d); auto).
  rewrite O. assert (DI : d_in (if d_dirty d then mkD (mkIn (l_g l) (map (convert (l_g l) dflt) (l_V l)) (l_F l) (l_level l)) (d_origV d) false (mkIn (l_g l) (map (convert (l_g l) dflt) (l_V l)) (l_F l) (l_level l)) else d) = mkIn (l_g l) (map (convert (l_g l) dflt) (l_V l)) (l_F l) (l_level l)) by (destruct (d_dirty d); auto).
  rewrite DI. reflexivity.
Qed.
(** calling bake again without an update changes nothing *)
Theorem c46_bake_idempotent : forall d, step (step d Bake) Bake = step d Bake.
Proof. intros d. cbn. destruct (d_dirty d) eqn:E; cbn; [auto|rewrite E; auto]. Qed.
(** update_mesh always takes effect at the next bake (given the vertex count, default threshold and no stale grid) *)
Theorem c46_update_mesh : forall (M : Type) (gen : inputs -> M) V0 F0 g n0 t0 t1 V F q, length V = length V0 -> qltb q 0 = true ->
  emit gen (run (ctor V0 F0 g n0 t0) [UpdMesh V F (Some q); Bake]) = emit gen (ctor V F g n0 t1).
Proof.
  intros M gen V0 F0 g n0 t0 t1 V F q LV Hq. apply (c46_fresh_partial M gen V0 F0 g n0 t0 [UpdMesh V F (Some q)] t1).
  - intros c [<-|[]]. auto.
  - intros c [<-|[]]. eauto.
  - intros [|? [|]] g' h2 [=].
  - intros [|? [|]] g' h2 [=].
Qed.
(** REFUTED: update_topology alone is ignored by bake, so the emitted mesh is the one of the old triangles *)
Theorem c46_topology_refuted : forall (M : Type) (gen : inputs -> M) V0 F0 g n0 t0 F, let d := run (ctor V0 F0 g n0 t0) [UpdTopology F; Bake] in
  em_mesh (emit gen d) = em_mesh (emit gen (ctor V0 F0 g n0 t0)) /\ em_origF (emit gen d) = F.
Proof. intros M gen V0 F0 g n0 t0 F d. split; reflexivity. Qed.
(** REFUTED: the threshold given to the constructor is never used *)
Theorem c46_threshold_refuted : forall V F g n t t', ctor V F g n t = ctor V F g n t'.
Proof. reflexivity. Qed.
(** positions of the input vertices in the baked mesh (generator_impl.hpp:154-186) *)
Definition baked_positions (i : inputs) : list pt := map (get_world_vertex (in_grid i)) (in_mV i).
(** REFUTED: after update_grid the vertices are still those of the old grid: a vertex at world position 2 in the grid with spacing 1 is emitted at 4 when the spacing becomes 2 *)
Definition grid1 : grid := mkGrid [0; 0; 0]%Qc [1; 1; 1]%Qc [4; 4; 4].
Definition grid2 : grid := mkGrid [0; 0; 0]%Qc [Q2Qc (2 # 1); Q2Qc (2 # 1); Q2Qc (2 # 1)] [4; 4; 4].
Definition q2pt : pt := [Q2Qc (2 # 1); Q2Qc (2 # 1); Q2Qc (2 # 1)].
Theorem c46_grid_refuted : forall n t t', let d := run (ctor [q2pt] [] grid1 n t) [UpdGrid grid2; Bake] in
  em_mesh (emit baked_positions d) <> em_mesh (emit baked_positions (ctor [q2pt] [] grid2 n t')) /\
  map (map this) (em_mesh (emit baked_positions d)) = [[4 # 1; 4 # 1; 4 # 1]] /\
  map (map this) (em_mesh (emit baked_positions (ctor [q2pt] [] grid2 n t'))) = [[2 # 1; 2 # 1; 2 # 1]].
Proof.
  intros n t t' d. assert (E1 : map (map this) (em_mesh (emit baked_positions d)) = [[4 # 1; 4 # 1; 4 # 1]]) by (vm_compute; reflexivity). assert (E2 : map (map this) (em_mesh (emit baked_positions (ctor [q2pt] [] grid2 n t'))) = [[2 # 1; 2 # 1; 2 # 1]]) by (vm_compute; reflexivity).
  split; [|auto]. intros E. rewrite E, E2 in E1. discriminate.
Qed.
(** REFUTED: the Imgui wrapper's update_vertices_and_bbox sets the vertices before the grid *)
Theorem c46_imgui_refuted : forall n t, let d := run (ctor [q2pt] [] grid1 n t) (imgui_update_vertices_and_bbox [q2pt] grid2 (Some (Q2Qc (-1 # 1))) ++ [Bake]) in
  em_mesh (emit baked_positions d) <> em_mesh (emit baked_positions (ctor [q2pt] [] grid2 n t)).
Proof.
  intros n t d E. assert (E1 : map (map this) (em_mesh (emit baked_positions d)) = [[4 # 1; 4 # 1; 4 # 1]]) by (vm_compute; reflexivity). rewrite E in E1. vm_compute in E1. discriminate.
Qed.
(** the hypotheses of the positive theorem are met by a history that changes everything *)
Example c46_history : let h := [UpdGrid grid2; UpdTopology [(0, 1, 2)]; Bake; UpdTopology [(0, 2, 1)]; UpdVertices [q2pt] (Some (Q2Qc (-1 # 1))); Bake; SetAdaptivity 3] in
  same_size 1 h /\ default_thr h /\ grid_then_vertices h /\ topology_marked h.
Proof.
  intros h. repeat split.
  - intros c Hc. repeat (destruct Hc as [<-|Hc]; [exact I || reflexivity|]). destruct Hc.
  - intros c Hc. repeat (destruct Hc as [<-|Hc]; [exact I || (eexists; split; [reflexivity|vm_compute; reflexivity])|]). destruct Hc.
  - intros h1 g h2 E. unfold h in E. destruct h1 as [|c [|c1 [|c2 [|c3 [|c4 [|c5 [|c6 [|]]]]]]]]; try discriminate. injection E as _ <-. eexists. split; [do 3 right; left; reflexivity|reflexivity].
  - intros h1 F h2 E. left. exists (SetAdaptivity 3). split; auto. unfold h in E. destruct h1 as [|c [|c1 [|c2 [|c3 [|c4 [|c5 [|c6 [|]]]]]]]]; try discriminate; injection E; intros; subst; cbn; auto 10.
Qed.
(** REFUTED that emit returns a mesh of one set of inputs: between an update and the next bake it pairs the old cut mesh with the new grid, vertices and triangles *)
Theorem c46_unbaked_refuted : forall (M : Type) (gen : inputs -> M) V0 F0 g0 n0 t0 h us, (forall c, In c us -> c <> Bake) ->
  let l := latest_after (mkL V0 F0 g0 n0) (h ++ us) in let d := run (ctor V0 F0 g0 n0 t0) h in
  emit gen (run d us) = mkEm (em_mesh (emit gen d)) (l_g l) (l_V l) (l_F l).
Proof.
  intros M gen V0 F0 g0 n0 t0 h us NB l d.
  assert (H1 : d_baked (run d us) = d_baked d).
  { clear l. clearbody d. unfold run. revert d. induction us as [|c us IH]; intros d; cbn [fold_left]; auto.
    rewrite IH by (intros; apply NB; simpl; auto). destruct c; try reflexivity. exfalso. apply (NB Bake); simpl; auto. }
  assert (H2 : forall cs e l0, d_origV e = l_V l0 -> in_F (d_in e) = l_F l0 -> in_grid (d_in e) = l_g l0 ->
    let e' := run e cs in let l' := latest_after l0 cs in d_origV e' = l_V l' /\ in_F (d_in e') = l_F l' /\ in_grid (d_in e') = l_g l').
  { induction cs as [|c cs IH]; intros e l0 A B C; [cbn; auto|]. apply (IH (step e c) (apply_call l0 c)); destruct c; cbn; auto; destruct (d_dirty e); auto. }
  destruct (H2 (h ++ us) (ctor V0 F0 g0 n0 t0) (mkL V0 F0 g0 n0) eq_refl eq_refl eq_refl) as (A & B & C).
  assert (R : run (ctor V0 F0 g0 n0 t0) (h ++ us) = run d us) by (unfold d, run; apply fold_left_app). rewrite R in *.
  unfold emit. rewrite H1, A, B, C. reflexivity.
Qed.
