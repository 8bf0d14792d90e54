From Verif Require Import Base Num SmallestEdge SmallestEdgeProofs DisjointSet DisjointSetSpec DisjointSetProofs
  FaceCollapser FaceCollapserProofs FaceCollapserIds FaceCollapserLoops FaceCollapserGeom CellCollapser CellCollapserSpec CellCollapserProofs.
From Coq Require Import Relations Permutation.
Local Open Scope Z_scope.

Lemma norev C a b : NoDup C -> (3 <= length C)%nat -> In (a, b) (cyc_pairs C) -> ~ In (b, a) (cyc_pairs C).
Proof.
  intros ND L H1 H2. apply cyc_next_iff in H1 as (i & E1 & E2), H2 as (j & E3 & E4).
  set (n := length C) in *. assert (n <> 0)%nat by lia.
  assert (INJ : forall p q v, nth_error C p = Some v -> nth_error C q = Some v -> p = q).
  { intros p q v P Q. apply (proj1 (NoDup_nth_error C) ND); [apply nth_error_Some; congruence|congruence]. }
  assert (P1 := INJ _ _ _ E2 E3). assert (P2 := INJ _ _ _ E4 E1).
  assert (Li : (i < n)%nat) by (apply nth_error_Some; congruence). assert (Lj : (j < n)%nat) by (apply nth_error_Some; congruence).
  assert (M : forall k, (k < n)%nat -> ((k + 1) mod n = if (k + 1 =? n)%nat then 0 else k + 1)%nat).
  { intros k Hk. destruct (Nat.eqb_spec (k + 1) n) as [->|]; [apply Nat.mod_same; auto|apply Nat.mod_small; lia]. }
  rewrite M in P1 by auto. rewrite M in P2 by auto.
  destruct (Nat.eqb_spec (i + 1) n), (Nat.eqb_spec (j + 1) n); lia.
Qed.
Lemma reversed_nil C : NoDup C -> (3 <= length C)%nat -> reversed_edges C = [].
Proof.
  intros ND L. unfold reversed_edges. assert (G : forall l, incl l (cyc_pairs C) ->
    flat_map (fun '(a, b) => if mem_edge (b, a) (cyc_pairs C) then [(b, a); (a, b)] else []) l = []).
  { induction l as [|[a b] l IH]; intros HI; simpl; auto. destruct (mem_edge (b, a) (cyc_pairs C)) eqn:E.
    - apply mem_edge_In in E. exfalso. eapply norev; eauto. apply HI; simpl; auto.
    - simpl. apply IH. intros y Hy; apply HI; simpl; auto. }
  apply G, incl_refl.
Qed.
Lemma clean_plain C : NoDup C -> (3 <= length C)%nat -> clean_unmanifold [] C = ([C], [], []).
Proof. intros ND L. unfold clean_unmanifold. rewrite reversed_nil; auto. Qed.
Lemma clean_face_plain loops : (forall C, In C loops -> NoDup C /\ (3 <= length C)%nat) ->
  exists cs, clean_face [] loops = (cs, [], []) /\ forall C, In C cs <-> In C loops.
Proof.
  unfold clean_face. intros H. assert (G : forall loops acc, (forall C, In C loops -> NoDup C /\ (3 <= length C)%nat) ->
    exists cs, fold_left (fun '(acc, _, inv) C2 =>
      let '(Cs, flaps, inv') := clean_unmanifold inv C2 in
      (fold_left (fun s C => if (length C <? 3)%nat then s else set_insert zlex C s) Cs acc, flaps, inv')) loops (acc, [], []) = (cs, [], []) /\
      forall C, In C cs <-> In C acc \/ In C loops).
  { clear. induction loops as [|C2 loops IH]; intros acc H; cbn [fold_left].
    - exists acc. split; auto. intros C; simpl; tauto.
    - destruct (H C2 (or_introl eq_refl)) as [ND L]. rewrite clean_plain by auto. cbn [fold_left].
      rewrite (proj2 (Nat.ltb_ge _ _)) by auto.
      destruct (IH (set_insert zlex C2 acc)) as (cs & E & I); [intros; apply H; simpl; auto|]. exists cs. split; [exact E|].
      intros C. rewrite I, (set_insert_In zlex_total). simpl. intuition. }
  destruct (G loops [] H) as (cs & E & I). exists cs. split; [exact E|]. intros C. rewrite I. simpl; tauto.
Qed.

(** all half-faces of one face written at once *)
Lemma fold_add_find f es : forall m o, ssorted hf_cmp (keys m) -> (forall e, In e es -> fst e <> snd e) ->
  (forall e, In e es -> ~ In (swap_edge e) es) ->
  let y := fold_left (add_halfface f) es (m, o) in
  ssorted hf_cmp (keys (fst y)) /\
  forall g e, map_find hf_cmp (g, e) (fst y) =
    if g =? f then if mem_edge e es then Some (100 * f, true) else if mem_edge (swap_edge e) es then Some (100 * f + 1, false) else map_find hf_cmp (g, e) m
    else map_find hf_cmp (g, e) m.
Proof.
  induction es as [|e0 es IH]; intros m o HS HN HR; [cbn; split; auto; intros g e; destruct (g =? f); auto|].
  cbn [fold_left]. unfold add_halfface at 2 4. cbn [fst snd].
  assert (HN0 : fst e0 <> snd e0) by (apply HN; simpl; auto).
  assert (F := fun h => find_set2 m f e0 h HS HN0).
  destruct (IH (map_set hf_cmp (f, swap_edge e0) (100 * f + 1, false) (map_set hf_cmp (f, e0) (100 * f, true) m)) (o ++ [OpAdd (100 * f); OpAdd (100 * f + 1)])) as [S I].
  - do 2 apply (map_set_sorted hf_total). auto.
  - intros; apply HN; simpl; auto.
  - intros e He Hs. apply (HR e); simpl; auto.
  - split; auto. intros g e. rewrite I, F. cbn [fst snd].
    destruct (Z.eqb_spec g f) as [->|Hne]; [|rewrite !andb_false_r; auto]. rewrite !andb_true_r.
    unfold mem_edge at 3 4. cbn [existsb]. fold (mem_edge e es). fold (mem_edge (swap_edge e) es).
    assert (SWE : edge_eqb (swap_edge e) e0 = edge_eqb e (swap_edge e0)) by apply swap_eqb. rewrite SWE.
    destruct (edge_eqb e e0) eqn:E1.
    + apply edge_eqb_eq in E1. subst e. cbn [orb].
      destruct (mem_edge e0 es) eqn:M1; auto.
      destruct (mem_edge (swap_edge e0) es) eqn:M2; auto.
      exfalso. apply mem_edge_In in M2. apply (HR e0); simpl; auto.
    + cbn [orb]. destruct (mem_edge e es) eqn:M1; auto. destruct (edge_eqb e (swap_edge e0)) eqn:E2; cbn [orb]; auto.
      apply edge_eqb_eq in E2. subst e. destruct (mem_edge (swap_edge (swap_edge e0)) es); auto.
Qed.
(** one face of the input *)
Definition own_edges (loops : list loop) : list edge := flat_map cyc_pairs loops.
Lemma own_In loops e : In e (own_edges loops) <-> exists C, In C loops /\ cyc_next C (fst e) (snd e).
Proof. unfold own_edges. rewrite in_flat_map. destruct e; simpl. split; intros (C & H & H'); exists C; rewrite cyc_next_iff in *; auto. Qed.
Definition plain_loops (loops : list loop) : Prop :=
  loops <> [] /\ (forall C, In C loops -> NoDup C /\ (3 <= length C)%nat) /\ forall e, In e (own_edges loops) -> ~ In (swap_edge e) (own_edges loops).
Lemma add_plain x f loops : cc_invalid x = [] -> ssorted hf_cmp (keys (cc_hf x)) -> plain_loops loops ->
  let y := add_face x (f, loops) in
  cc_invalid y = [] /\ ssorted hf_cmp (keys (cc_hf y)) /\ (forall g, survives y g <-> survives x g \/ g = f) /\
  (forall g e, g <> f -> map_find hf_cmp (g, e) (cc_hf y) = map_find hf_cmp (g, e) (cc_hf x)) /\
  (forall e s, (forall e, map_find hf_cmp (f, e) (cc_hf x) = None) ->
     side_at (cc_hf y) f e s <-> In (if s then e else swap_edge e) (own_edges loops)).
Proof.
  intros HI HS (NE & PL & NR). unfold add_face. rewrite HI. destruct (clean_face_plain loops PL) as (cs & -> & I).
  destruct cs as [|C cs]; [destruct loops as [|C l]; [congruence|exfalso; apply (proj2 (I C)); simpl; auto]|].
  cbn zeta. cbn [cc_hf cc_invalid]. rewrite app_nil_r. fold (own_edges (C :: cs)).
  assert (OE : forall e, In e (own_edges (C :: cs)) <-> In e (own_edges loops)).
  { intros e. rewrite !own_In. split; intros (D & HD & H); exists D; split; auto; apply I; auto. }
  destruct (fold_add_find f (own_edges (C :: cs)) (cc_hf x) (cc_ops x) HS) as [S F].
  { intros e He. apply OE, own_In in He as (D & HD & He). destruct (PL D HD) as [ND L]. apply cyc_next_iff in He.
    eapply cyc_noself; eauto. lia. }
  { intros e He. rewrite OE. apply NR, OE; auto. }
  split; auto. split; auto. split; [|split].
  - intros g. unfold survives. cbn [cc_faces]. rewrite map_set_keys, (set_insert_In Zcompare_total). tauto.
  - intros g e Hne. rewrite F, (proj2 (Z.eqb_neq _ _)) by auto. auto.
  - intros e s HN. unfold side_at. rewrite F, Z.eqb_refl.
    destruct (mem_edge e (own_edges (C :: cs))) eqn:M1; [|destruct (mem_edge (swap_edge e) (own_edges (C :: cs))) eqn:M2].
    + apply mem_edge_In in M1. rewrite OE in M1. destruct s; [split; eauto|]. split; [intros [c E]; discriminate|]. intros H. exfalso. exact (NR e M1 H).
    + apply mem_edge_In in M2. rewrite OE in M2. destruct s; [|split; eauto]. split; [intros [c E]; discriminate|].
      intros H. exfalso. apply (NR e); auto.
    + rewrite HN. split; [intros [c E]; discriminate|]. intros H. exfalso.
      rewrite <- not_true_iff_false, mem_edge_In, OE in M1, M2. destruct s; auto.
Qed.
Lemma build_plain_gen faces : forall x, cc_invalid x = [] -> ssorted hf_cmp (keys (cc_hf x)) ->
  NoDup (map fst faces) -> (forall f loops, In (f, loops) faces -> plain_loops loops) ->
  (forall f e, In f (map fst faces) -> map_find hf_cmp (f, e) (cc_hf x) = None) ->
  let y := fold_left add_face faces x in
  cc_invalid y = [] /\ (forall g, survives y g <-> survives x g \/ In g (map fst faces)) /\
  (forall g e, ~ In g (map fst faces) -> map_find hf_cmp (g, e) (cc_hf y) = map_find hf_cmp (g, e) (cc_hf x)) /\
  (forall g loops e s, In (g, loops) faces -> side_at (cc_hf y) g e s <-> In (if s then e else swap_edge e) (own_edges loops)).
Proof.
  induction faces as [|[f loops] faces IH]; intros x HI HS ND PL HN; cbn [fold_left map fst].
  - split; auto. split; [simpl; tauto|]. split; auto. intros g l e s [].
  - cbn [map fst] in ND, HN. inversion ND as [|? ? NF ND']; subst.
    destruct (add_plain x f loops HI HS (PL f loops (or_introl eq_refl))) as (A1 & A2 & A3 & A4 & A5).
    destruct (IH (add_face x (f, loops)) A1 A2 ND') as (B1 & B2 & B3 & B4).
    { intros; eapply PL; right; eauto. }
    { intros g e Hg. rewrite A4; [apply HN; simpl; auto|]. intros ->; auto. }
    split; auto. split; [|split].
    + intros g. rewrite B2, A3. simpl. intuition.
    + intros g e Hg. rewrite B3 by (intros H; apply Hg; simpl; auto). apply A4. intros ->. apply Hg; simpl; auto.
    + intros g l e s [[= -> ->]|Hin]; [|apply B4; auto].
      unfold side_at. rewrite B3 by auto. apply A5. intros e'. apply HN; simpl; auto.
Qed.
Lemma plain_own faces f loops e : NoDup (map fst faces) -> In (f, loops) faces -> (face_edge faces f e <-> In e (own_edges loops)).
Proof.
  intros ND Hin. rewrite own_In. split.
  - intros (l & C & Hl & H). replace l with loops in H; [exists C; auto|].
    clear - ND Hin Hl. induction faces as [|[g k] fs IH]; [destruct Hin|]. cbn [map fst] in ND. inversion ND as [|? ? NF ND']; subst.
    destruct Hin as [[= -> ->]|Hin], Hl as [[= E]|Hl]; auto.
    + exfalso. apply NF. apply (in_map fst) in Hl. auto.
    + exfalso. subst. apply NF. apply (in_map fst) in Hin. auto.
  - intros (C & H). exists loops, C. tauto.
Qed.
Lemma build_plain faces : plain_faces faces -> let x := cc_build faces in
  cc_invalid x = [] /\ (forall f, survives x f <-> In f (map fst faces)) /\
  forall f e s, side_at (cc_hf x) f e s <-> face_edge faces f (if s then e else swap_edge e).
Proof.
  intros [ND P]. assert (PL : forall f loops, In (f, loops) faces -> plain_loops loops).
  { intros f loops Hin. destruct (P f loops Hin) as (_ & NE & PL & NR). split; auto. split; auto.
    intros [a b] H1 H2. apply (plain_own faces f loops) in H1, H2; auto. unfold swap_edge in H2. eapply NR; eauto. }
  destruct (build_plain_gen faces (mkCC [] [] [] []) eq_refl (ss_nil _) ND PL) as (B1 & B2 & B3 & B4); [intros; reflexivity|].
  fold (cc_build faces) in *. split; auto. split.
  - intros f. rewrite B2. unfold survives. simpl. tauto.
  - intros f e s. destruct (in_dec Z.eq_dec f (map fst faces)) as [Hin|Hn].
    + apply in_map_iff in Hin as ([f' loops] & E & Hin). simpl in E. subst f'. rewrite (B4 f loops) by auto.
      symmetry. apply plain_own; auto.
    + unfold side_at. rewrite B3 by auto. split; [intros [c E]; discriminate|]. intros (l & C & Hin & _). exfalso. apply Hn. apply (in_map fst) in Hin. auto.
Qed.

Section Manifold.
  Variable ord : edge -> list Z -> list Z.
  Variable open : bool.
  Hypothesis ord_perm : forall e fs, Permutation (ord e fs) fs.
  Variable faces : list (Z * list loop).
  Hypothesis PF : plain_faces faces.
  Hypothesis CO : closed_oriented faces.
  Let x := cc_build faces.
  Let m := cc_hf x.
  Let SA : forall f e s, side_at m f e s <-> face_edge faces f (if s then e else swap_edge e).
  Proof. apply build_plain; auto. Qed.
  Let fa_In e f : In f (faces_at m e) <-> exists s, side_at m f e s.
  Proof.
    unfold faces_at, side_at. rewrite in_map_iff. destruct (build_wf faces) as (W & _). assert (HS := hw_sorted _ _ W). split.
    - intros ([[f' e'] [c s]] & <- & H). apply filter_In in H as [H E]. cbn in E. apply edge_eqb_eq in E. subst e'.
      exists s, c. apply (map_find_Some hf_total); auto.
    - intros (s & c & E). exists ((f, e), (c, s)). split; auto. apply filter_In. split; [apply (map_find_Some hf_total); auto|]. cbn. apply edge_eqb_eq; auto.
  Qed.
  Let fa_NoDup e : NoDup (faces_at m e).
  Proof.
    destruct (build_wf faces) as (W & _). assert (HS := hw_sorted _ _ W). apply (ssorted_NoDup hf_total) in HS. fold x in HS. fold m in HS.
    assert (G : forall l : hfmap, NoDup (keys l) -> NoDup (faces_at l e)); [|apply G; auto].
    clear. unfold faces_at. induction l as [|[[f e'] v] l IH]; intros HS; [constructor|]. cbn [keys map fst] in HS. inversion HS as [|? ? NF ND]; subst.
    cbn [filter fst snd]. destruct (edge_eqb e e') eqn:E; [|apply IH; auto]. apply edge_eqb_eq in E. subst e'. cbn [map fst]. constructor; [|apply IH; auto].
    intros H. apply in_map_iff in H as ([[f' e'] v'] & Ef & H). cbn in Ef. subst f'. apply filter_In in H as [H E]. cbn in E. apply edge_eqb_eq in E. subst e'.
    apply NF. apply (in_map fst) in H. auto.
  Qed.
  Lemma fe_ne f e : face_edge faces f e -> fst e <> snd e.
  Proof.
    intros (l & C & Hin & HC & H). destruct (proj2 PF _ _ Hin) as (_ & _ & PL & _). destruct (PL C HC) as [ND L].
    apply cyc_next_iff in H. eapply cyc_noself; eauto. lia.
  Qed.
  Lemma fe_diff f g e : face_edge faces f e -> face_edge faces g (swap_edge e) -> f <> g.
  Proof.
    intros H1 H2 ->. assert (H := H1). destruct H as (l & _ & Hin & _). destruct (proj2 PF _ _ Hin) as (_ & _ & _ & NR).
    destruct e; unfold swap_edge in H2. eapply NR; eauto.
  Qed.
  Lemma perm_pair (l : list Z) a b : NoDup l -> a <> b -> (forall c, In c l <-> c = a \/ c = b) -> l = [a; b] \/ l = [b; a].
  Proof.
    intros ND NE H. destruct l as [|u [|v [|w l]]].
    - exfalso. apply (proj2 (H a)); auto.
    - exfalso. destruct (proj2 (H a) (or_introl eq_refl)) as [|[]], (proj2 (H b) (or_intror eq_refl)) as [|[]]; congruence.
    - inversion ND as [|? ? N1 N2]; subst. assert (u <> v) by (simpl in N1; intuition).
      destruct (proj1 (H u)) as [->| ->]; simpl; auto; destruct (proj1 (H v)) as [->| ->]; simpl; auto; congruence.
    - exfalso. inversion ND as [|? ? N1 N2]; subst. inversion N2 as [|? ? N3 N4]; subst.
      destruct (proj1 (H u)); simpl; auto; destruct (proj1 (H v)); simpl; auto; destruct (proj1 (H w)); simpl; auto; subst; simpl in *; tauto.
  Qed.
  Lemma around f g e : face_edge faces f e -> face_edge faces g (swap_edge e) ->
    ord e (faces_at m e) = [f; g] \/ ord e (faces_at m e) = [g; f].
  Proof.
    intros H1 H2. assert (NE := fe_diff _ _ _ H1 H2). apply perm_pair; auto.
    - eapply Permutation_NoDup; [symmetry; apply ord_perm|apply fa_NoDup].
    - intros c. assert (E : In c (ord e (faces_at m e)) <-> In c (faces_at m e)).
      { split; apply Permutation_in; [apply ord_perm|symmetry; apply ord_perm]. }
      rewrite E, fa_In. split.
      + intros [s H]. apply SA in H. destruct s; [left; eapply (proj1 CO); eauto|right; eapply (proj1 CO); eauto].
      + intros [->| ->]; [exists true|exists false]; apply SA; auto.
  Qed.
  Lemma around_next f g e : face_edge faces f e -> face_edge faces g (swap_edge e) ->
    cyc_next (ord e (faces_at m e)) f g /\ cyc_next (ord e (faces_at m e)) g f /\ (1 < length (faces_at m e))%nat.
  Proof.
    intros H1 H2. assert (L := Permutation_length (ord_perm e (faces_at m e))).
    destruct (around _ _ _ H1 H2) as [E|E]; rewrite E in *; simpl in L; (split; [|split; [|lia]]);
      solve [exists 0%nat; simpl; auto | exists 1%nat; simpl; auto].
  Qed.
  Lemma dih_ok a b : dihedral ord open m (cc_invalid x) a b -> snd a = snd b /\ shares_edge faces (fst a) (fst b) \/ snd a = snd b /\ shares_edge faces (fst b) (fst a).
  Proof.
    destruct a as [f s], b as [g t]. cbn [fst snd]. intros (e & _ & _ & _ & HC & H1 & H2). cbn [fst snd] in *.
    assert (H2' : side_at m g (swap_edge e) t) by (destruct e; auto).
    apply SA in H1, H2'.
    assert (FG : f <> g).
    { destruct e as [u v]. assert (EX : exists f' g', face_edge faces f' (u, v) /\ face_edge faces g' (v, u)).
      { destruct s; unfold swap_edge in H1; simpl in H1; destruct (proj2 CO _ _ _ H1); eauto. }
      destruct EX as (f' & g' & F1 & F2). assert (NE := fe_diff f' g' (u, v) F1 F2). destruct (around f' g' (u, v) F1 F2) as [E|E]; rewrite E in HC;
      destruct HC as ([|[|i]] & C1 & C2); cbn in C1, C2; congruence || (destruct i; discriminate). }
    destruct e as [u v]; unfold swap_edge in *; cbn [fst snd] in *.
    destruct s, t.
    - left. split; auto. exists u, v. auto.
    - exfalso. apply FG. eapply (proj1 CO); eauto.
    - exfalso. apply FG. eapply (proj1 CO); eauto.
    - right. split; auto. exists u, v; auto.
  Qed.
  Lemma share_dih f g s : shares_edge faces f g -> dihedrally_connected ord open m (cc_invalid x) (f, s) (g, s).
  Proof.
    assert (HI : cc_invalid x = []) by (apply build_plain; auto).
    assert (G : forall f g u v, u < v -> face_edge faces f (u, v) -> face_edge faces g (v, u) ->
      dihedrally_connected ord open m (cc_invalid x) (f, true) (g, true) /\ dihedrally_connected ord open m (cc_invalid x) (g, false) (f, false)).
    { clear f g s. intros f g u v L H1 H2. destruct (around_next f g (u, v) H1 H2) as (N1 & N2 & N3).
      split; apply rst_step; exists (u, v); cbn [fst snd]; (split; [auto|]); (split; [rewrite HI; intros []|]); (split; [auto|]); (split; [auto|]); split; apply SA; auto. }
    intros (u & v & H1 & H2). assert (NE := fe_ne _ _ H1). cbn in NE. destruct (Z.lt_ge_cases u v) as [L|L].
    - destruct (G f g u v L H1 H2) as [G1 G2]. destruct s; [auto|apply rst_sym; auto].
    - destruct (G g f v u) as [G1 G2]; auto; [lia|]. destruct s; [apply rst_sym; auto|auto].
  Qed.
  Theorem manifold_conn f s g t : dihedrally_connected ord open m (cc_invalid x) (f, s) (g, t) <-> s = t /\ edge_connected faces f g.
  Proof.
    split.
    - intros H. assert (G : forall a b, dihedrally_connected ord open m (cc_invalid x) a b -> snd a = snd b /\ edge_connected faces (fst a) (fst b)).
      { clear f s g t H. intros a b H. induction H as [a b H| | a b H IH| a b c H1 IH1 H2 IH2].
        - destruct (dih_ok _ _ H) as [[H1 H2]|[H1 H2]]; split; auto; [apply rst_step; auto|apply rst_sym, rst_step; auto].
        - split; auto. apply rst_refl.
        - destruct IH. split; auto. apply rst_sym; auto.
        - destruct IH1, IH2. split; [congruence|eapply rst_trans; eauto]. }
      exact (G _ _ H).
    - intros [-> H]. induction H as [a b H| | a b H IH| a b c H1 IH1 H2 IH2].
      + apply share_dih; auto.
      + apply rst_refl.
      + apply rst_sym; auto.
      + eapply rst_trans; eauto.
  Qed.
End Manifold.
Lemma plain_kept faces f ls : plain_faces faces -> In (f, ls) faces ->
  exists ls', map_find Z.compare f (cc_faces (cc_build faces)) = Some ls' /\ forall C, In C ls' <-> In C ls.
Proof.
  intros [ND P] Hin. unfold cc_build.
  assert (PL : forall f loops, In (f, loops) faces -> loops <> [] /\ forall C, In C loops -> NoDup C /\ (3 <= length C)%nat).
  { intros g loops H. destruct (P g loops H) as (_ & NE & PL & NR). auto. }
  clear P. assert (G : forall fs x, cc_invalid x = [] -> ssorted Z.compare (keys (cc_faces x)) -> NoDup (map fst fs) ->
    (forall f loops, In (f, loops) fs -> loops <> [] /\ forall C, In C loops -> NoDup C /\ (3 <= length C)%nat) ->
    let y := fold_left add_face fs x in
    (forall g, ~ In g (map fst fs) -> map_find Z.compare g (cc_faces y) = map_find Z.compare g (cc_faces x)) /\
    forall g l, In (g, l) fs -> exists l', map_find Z.compare g (cc_faces y) = Some l' /\ forall C, In C l' <-> In C l).
  { clear. induction fs as [|[f loops] fs IH]; intros x HI HS ND PL; cbn [fold_left map fst].
    - split; auto. intros g l [].
    - cbn [map fst] in ND. inversion ND as [|? ? NF ND']; subst. destruct (PL f loops (or_introl eq_refl)) as [NE PL0].
      destruct (clean_face_plain loops PL0) as (cs & E & I).
      assert (Y : let y := add_face x (f, loops) in cc_invalid y = [] /\ cc_faces y = map_set Z.compare f cs (cc_faces x)).
      { unfold add_face. rewrite HI, E. destruct cs as [|C cs]; [destruct loops as [|C l]; [congruence|exfalso; apply (proj2 (I C)); simpl; auto]|]. auto. }
      destruct Y as [Y1 Y2]. destruct (IH (add_face x (f, loops)) Y1) as [J1 J2]; auto.
      { rewrite Y2. apply (map_set_sorted Zcompare_total); auto. }
      { intros; eapply PL; right; eauto. }
      split.
      + intros g Hg. rewrite J1 by (intros ?; apply Hg; simpl; auto). rewrite Y2, (map_find_set Zcompare_total) by auto.
        destruct (Z.compare_spec g f) as [->| |]; auto. exfalso. apply Hg; simpl; auto.
      + intros g l [[= -> ->]|H]; [|apply J2; auto]. exists cs. split; auto. rewrite J1 by auto. rewrite Y2, (map_find_set Zcompare_total), Z.compare_refl by auto. auto. }
  destruct (G faces (mkCC [] [] [] []) eq_refl (ss_nil _) ND PL) as [_ G2]. apply G2; auto.
Qed.
