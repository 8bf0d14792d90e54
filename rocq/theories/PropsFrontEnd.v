(** Properties C147-C150: the command-line front ends. *)
From Verif Require Import Base Num CoordMask Vertex Grid SmallestEdge AdaptiveGrid Mesh Sparse Mesh2 Volume Boundary3 Queries3 Slicer PropsSlicer FrontEnd.
From Coq Require Import Ascii Permutation Sorted.
Set Implicit Arguments.
Local Open Scope Z_scope.

(** * C147: removing duplicate triangles *)
Lemma insert_sorted_perm x l : Permutation (insert_sorted x l) (x :: l).
Proof. induction l as [|y l IH]; cbn; auto. destruct (x <=? y); auto. rewrite IH. apply perm_swap. Qed.
Lemma insert_sorted_sorted x l : StronglySorted Z.le l -> StronglySorted Z.le (insert_sorted x l).
Proof.
  induction 1 as [|y l S IH F]; cbn; [repeat constructor|]. destruct (Z.leb_spec x y) as [L|L].
  - constructor; [constructor; auto|]. constructor; auto. eapply Forall_impl; [|exact F]. cbn. intros; lia.
  - constructor; auto. apply Forall_forall. intros z Hz. apply (Permutation_in _ (insert_sorted_perm x l)) in Hz. destruct Hz as [<-|Hz]; [lia|]. rewrite Forall_forall in F. auto.
Qed.
Lemma sort_perm f : Permutation (sort_triple f) f.
Proof. induction f as [|x f IH]; cbn; auto. rewrite insert_sorted_perm. auto. Qed.
Lemma sort_sorted f : StronglySorted Z.le (sort_triple f).
Proof. induction f as [|x f IH]; cbn; [constructor|]. apply insert_sorted_sorted; auto. Qed.
Lemma sorted_perm_eq : forall l l' : list Z, StronglySorted Z.le l -> StronglySorted Z.le l' -> Permutation l l' -> l = l'.
Proof.
  induction l as [|x l IH]; intros l' S S' P; [symmetry; apply Permutation_nil; auto|]. destruct l' as [|y l']; [apply Permutation_sym, Permutation_nil in P; discriminate|].
  inversion S as [|? ? S1 F1]; inversion S' as [|? ? S2 F2]; subst. rewrite Forall_forall in F1, F2.
  assert (x = y). { assert (A : In x (y :: l')) by (eapply Permutation_in; [exact P|cbn; auto]). assert (B : In y (x :: l)) by (eapply Permutation_in; [apply Permutation_sym; exact P|cbn; auto]).
    destruct A as [A|A]; auto. destruct B as [B|B]; auto. apply F2 in A. apply F1 in B. lia. }
  subst y. f_equal. apply IH; auto. eapply Permutation_cons_inv. exact P.
Qed.
Theorem c147_triangles : forall F, NoDup (unique_triangles F) /\
  forall t, In t (unique_triangles F) <-> StronglySorted Z.le t /\ exists f, In f F /\ Permutation f t.
Proof.
  intros F. unfold unique_triangles. split; [apply (ssorted_NoDup zlex_total), set_of_list_sorted, zlex_total|].
  intros t. rewrite (set_of_list_In zlex_total), in_map_iff. split.
  - intros (f & <- & I). split; [apply sort_sorted|]. exists f. split; auto. apply Permutation_sym, sort_perm.
  - intros (S & f & I & P). exists f. split; auto. apply sorted_perm_eq; auto; [apply sort_sorted|]. rewrite sort_perm. auto.
Qed.
(** no two remaining triangles have the same vertices *)
Theorem c147_one_per_vertex_set : forall F t t', In t (unique_triangles F) -> In t' (unique_triangles F) -> Permutation t t' -> t = t'.
Proof. intros F t t' H H' P. apply c147_triangles in H as [S _], H' as [S' _]. apply sorted_perm_eq; auto. Qed.
(** the result depends only on the vertex sets of the triangles: not on their order, repetition or orientation *)
Theorem c147_ext : forall F G, (forall f, In f F -> exists g, In g G /\ Permutation f g) -> (forall g, In g G -> exists f, In f F /\ Permutation f g) -> unique_triangles F = unique_triangles G.
Proof.
  intros F G A B. unfold unique_triangles. apply (ssorted_ext zlex_total); try apply (set_of_list_sorted zlex_total). intros t. fold (unique_triangles F) (unique_triangles G). rewrite (proj2 (c147_triangles F)), (proj2 (c147_triangles G)).
  split; intros (S & f & I & P); split; auto.
  - destruct (A f I) as (g & Ig & Pg). exists g. split; auto. rewrite <- P. apply Permutation_sym; auto.
  - destruct (B f I) as (g & Ig & Pg). exists g. split; auto. rewrite Pg. auto.
Qed.
Theorem c147_idempotent : forall F, unique_triangles (unique_triangles F) = unique_triangles F.
Proof.
  intros F. apply c147_ext.
  - intros t H. apply c147_triangles in H as (_ & f & I & P). exists f. split; auto. apply Permutation_sym; auto.
  - intros f I. exists (sort_triple f). split; [|apply sort_perm]. apply c147_triangles. split; [apply sort_sorted|]. exists f. split; auto. apply Permutation_sym, sort_perm.
Qed.
(** REFUTED: that an oriented closed surface stays oriented.  Specification: triangle [a;b;c] walks a to b, b to c, c to a; in an oriented
    surface no two triangles walk the same edge in the same direction.  A surface is closed if every edge of a triangle is in another triangle *)
Definition walks (t : list Z) (u v : Z) : Prop := match t with [a; b; c] => (u, v) = (a, b) \/ (u, v) = (b, c) \/ (u, v) = (c, a) | _ => False end.
Definition closed_surface (F : list (list Z)) : Prop := forall f, In f F -> length f = 3%nat /\ NoDup f /\
  forall u v, In u f -> In v f -> u <> v -> exists f', In f' F /\ In u f' /\ In v f' /\ ~ Permutation f f'.
Lemma least (l : list Z) : l <> [] -> exists m, In m l /\ forall x, In x l -> m <= x.
Proof.
  induction l as [|a l IH]; [congruence|]. intros _. destruct l as [|b l]; [exists a; cbn; split; [auto|intros x [<-|[]]; lia]|].
  destruct IH as (m & Hm & L); [discriminate|]. destruct (Z.le_gt_cases a m) as [C|C].
  - exists a. split; [cbn; auto|]. intros x [<-|Hx]; [lia|]. specialize (L x Hx). lia.
  - exists m. split; [cbn; auto|]. intros x [<-|Hx]; [lia|]. auto.
Qed.
Theorem c147_orientation_refuted : forall F, F <> [] -> closed_surface F ->
  exists t t' u v, In t (unique_triangles F) /\ In t' (unique_triangles F) /\ t <> t' /\ walks t u v /\ walks t' u v.
Proof.
  intros F NE C. destruct (@least (concat F)) as (v0 & I0 & L0).
  { destruct F as [|f F]; [congruence|]. destruct (C f) as (L & _); [cbn; auto|]. destruct f; [discriminate|cbn; discriminate]. }
  apply in_concat in I0 as (f0 & If0 & Iv0).
  set (nb := filter (fun x => negb (x =? v0)) (concat (filter (fun f => existsb (Z.eqb v0) f) F))).
  assert (NB : forall x, In x nb <-> x <> v0 /\ exists f, In f F /\ In v0 f /\ In x f).
  { intros x. unfold nb. rewrite filter_In, in_concat. split.
    - intros ((f & Hf & Hx) & E). apply filter_In in Hf as [Hf V]. apply existsb_exists in V as (y & Hy & E'). apply Z.eqb_eq in E'. subst y. split; [|eauto]. destruct (Z.eqb_spec x v0); auto; discriminate.
    - intros (N & f & Hf & V & Hx). split; [|destruct (Z.eqb_spec x v0); auto]. exists f. split; auto. apply filter_In. split; auto. apply existsb_exists. exists v0. split; auto. apply Z.eqb_refl. }
  destruct (@least nb) as (b & Ib & Lb).
  { destruct (C f0 If0) as (L & ND & _). destruct f0 as [|x [|y f0]]; try discriminate. inversion ND as [|? ? NI _]; subst. intros E.
    assert (X : In (if Z.eqb x v0 then y else x) nb). { apply NB. destruct (Z.eqb_spec x v0) as [->|Q]; split; auto; [intros ->; apply NI; cbn; auto|exists (v0 :: y :: f0); cbn; auto|exists (x :: y :: f0); cbn; auto]. } rewrite E in X. destruct X. }
  apply NB in Ib as (Nb & f1 & If1 & V1 & B1). destruct (C f1 If1) as (_ & _ & W). destruct (W v0 b V1 B1 (not_eq_sym Nb)) as (f2 & If2 & V2 & B2 & NP).
  assert (G : forall f, In f F -> In v0 f -> In b f -> exists x, sort_triple f = [v0; b; x]).
  { intros f Hf Hv Hb. assert (P := sort_perm f). assert (S := sort_sorted f). destruct (C f Hf) as (L & ND & _). assert (L' := Permutation_length P). rewrite L in L'. assert (ND' := Permutation_NoDup (Permutation_sym P) ND).
    assert (M : forall z, In z (sort_triple f) <-> In z f) by (intros z; split; apply Permutation_in; auto using Permutation_sym).
    destruct (sort_triple f) as [|p [|q [|r [|]]]]; try discriminate. inversion S as [|? ? S1 F1]; subst. inversion S1 as [|? ? S2 F2]; subst. inversion F1; inversion F2; subst. inversion ND' as [|? ? N1 N2]; subst. inversion N2 as [|? ? N3 _]; subst. cbn in *.
    assert (p = v0). { assert (v0 <= p) by (apply L0, in_concat; exists f; split; auto; apply M; auto). apply M in Hv as [Hv|[Hv|[Hv|[]]]]; lia. } subst p.
    assert (b <= q). { apply Lb, NB. split; [intros ->; tauto|]. exists f. split; auto. split; auto. apply M. auto. }
    destruct (proj2 (M b) Hb) as [Q|[Q|[Q|[]]]]; [congruence|rewrite <- Q; eauto|]. exfalso. apply N3. left. lia. }
  destruct (G f1 If1 V1 B1) as (x1 & E1), (G f2 If2 V2 B2) as (x2 & E2). exists (sort_triple f1), (sort_triple f2), v0, b.
  assert (U : forall f, In f F -> In (sort_triple f) (unique_triangles F)). { intros f Hf. apply c147_triangles. split; [apply sort_sorted|]. exists f. split; auto. apply Permutation_sym, sort_perm. }
  split; [auto|]. split; [auto|]. split; [|rewrite E1, E2; cbn; auto]. intros E. apply NP. rewrite <- (sort_perm f1), <- (sort_perm f2), E. auto.
Qed.
(** Example: the boundary of a tetrahedron, with one triangle given twice *)
Definition tetra := [[0; 2; 1]; [0; 1; 3]; [1; 2; 3]; [0; 3; 2]; [2; 1; 0]].
Example c147_tetra : closed_surface tetra /\ unique_triangles tetra = [[0; 1; 2]; [0; 1; 3]; [0; 2; 3]; [1; 2; 3]].
Proof.
  split; [|vm_compute; reflexivity]. assert (NP : forall f f' : list Z, sort_triple f <> sort_triple f' -> ~ Permutation f f'). { intros f f' N P. apply N, sorted_perm_eq; try apply sort_sorted. rewrite !sort_perm. auto. }
  intros f Hf. unfold tetra in Hf. cbn [In] in Hf. repeat destruct Hf as [<-|Hf]; try destruct Hf; (split; [reflexivity|]; split; [repeat constructor; cbn; lia|]; intros u v Hu Hv N; cbn [In] in Hu, Hv;
    repeat destruct Hu as [<-|Hu]; try destruct Hu; repeat destruct Hv as [<-|Hv]; try destruct Hv; try congruence;
    first [exists [0; 2; 1]; split; [cbn; tauto|]; split; [cbn; lia|]; split; [cbn; lia|]; apply NP; vm_compute; discriminate
          |exists [0; 1; 3]; split; [cbn; tauto|]; split; [cbn; lia|]; split; [cbn; lia|]; apply NP; vm_compute; discriminate
          |exists [1; 2; 3]; split; [cbn; tauto|]; split; [cbn; lia|]; split; [cbn; lia|]; apply NP; vm_compute; discriminate
          |exists [0; 3; 2]; split; [cbn; tauto|]; split; [cbn; lia|]; split; [cbn; lia|]; apply NP; vm_compute; discriminate]).
Qed.

(** * C148: reading three tokens, and the shape argument *)
(** Specification: blanks, words (non-empty, no blank), and what may follow a word *)
Definition blank (s : str) : Prop := Forall (fun c => c = " "%char) s.
Definition word (s : str) : Prop := s <> [] /\ Forall (fun c => c <> " "%char) s.
Definition ends_word (s : str) : Prop := s = [] \/ exists t, s = " "%char :: t.
Notation sp := (" "%char).
Lemma is_space_iff c : is_space c = true <-> c = sp.
Proof. unfold is_space. apply Ascii.eqb_eq. Qed.
Lemma index_skip p (a b : str) : Forall (fun c => p c = false) a -> index p (a ++ b) = option_map (Nat.add (length a)) (index p b).
Proof. induction 1 as [|c a H _ IH]; cbn [app index length]; [destruct (index p b); auto|]. rewrite H, IH. destruct (index p b); auto. Qed.
Lemma index_none p (a : str) : Forall (fun c => p c = false) a -> index p a = None.
Proof. intros H. rewrite <- (app_nil_r a), index_skip by auto. auto. Qed.
Lemma skipn_app_len (A : Type) (a b : list A) n : n = length a -> skipn n (a ++ b) = b.
Proof. intros ->. rewrite skipn_app, skipn_all, Nat.sub_diag. auto. Qed.
Lemma blank_neg b : blank b -> Forall (fun c => negb (is_space c) = false) b.
Proof. intros H. eapply Forall_impl; [|exact H]. cbn. intros c ->. reflexivity. Qed.
Lemma word_neg w : word w -> Forall (fun c => is_space c = false) w.
Proof. intros [_ H]. eapply Forall_impl; [|exact H]. cbn. intros c N. destruct (is_space c) eqn:E; auto. apply is_space_iff in E. congruence. Qed.
Definition next_of (start : option nat) : nat := match start with Some k => S k | None => O end.
Lemma round_word s start pre b w rest : s = pre ++ b ++ w ++ rest -> length pre = next_of start -> blank b -> word w -> ends_word rest ->
  tok_round s start = Some (w, match rest with [] => None | _ => Some (length (pre ++ b ++ w)) end).
Proof.
  intros -> L B W E. unfold tok_round. fold (next_of start). unfold find_at at 1. rewrite <- L, skipn_app_len by auto. rewrite index_skip by (apply blank_neg; auto).
  assert (F : index (fun c => negb (is_space c)) (w ++ rest) = Some O). { destruct W as [N W']. destruct w as [|c w]; [congruence|]. cbn. inversion W'; subst. destruct (is_space c) eqn:Q; auto. apply is_space_iff in Q. congruence. }
  rewrite F. cbn [option_map]. rewrite Nat.add_0_r. unfold find_at. rewrite app_assoc, skipn_app_len by (rewrite app_length; auto). rewrite index_skip by (apply word_neg; auto).
  unfold substr. destruct (Nat.ltb_spec (length ((pre ++ b) ++ w ++ rest)) (length pre + length b)) as [X|_]; [rewrite !app_length in X; lia|]. rewrite skipn_app_len by (rewrite app_length; auto).
  destruct E as [-> | (t & ->)].
  - cbn [index option_map]. rewrite app_nil_r. f_equal. f_equal. rewrite firstn_all2; auto. rewrite !app_length. lia.
  - cbn [index option_map]. change (is_space sp) with true. cbn iota. cbn [option_map]. rewrite Nat.add_0_r. rewrite firstn_app. rewrite firstn_all2 by lia. replace (_ - _ - length w)%nat with 0%nat by lia. cbn [firstn]. rewrite app_nil_r. rewrite !app_length. f_equal. f_equal. f_equal. lia.
Qed.
Lemma round_blank s start pre b : s = pre ++ b -> length pre = next_of start -> blank b -> tok_round s start = None.
Proof. intros -> L B. unfold tok_round. fold (next_of start). unfold find_at at 1. rewrite <- L, skipn_app_len by auto. rewrite index_none by (apply blank_neg; auto). auto. Qed.
(** three words separated by blanks, with anything after them, are read *)
Theorem c148_three_words : forall b0 w1 b1 w2 b2 w3 rest, blank b0 -> blank b1 -> blank b2 -> word w1 -> word w2 -> word w3 -> ends_word rest ->
  parse_3toks (b0 ++ w1 ++ sp :: b1 ++ w2 ++ sp :: b2 ++ w3 ++ rest) = Some (w1, w2, w3).
Proof.
  intros b0 w1 b1 w2 b2 w3 rest B0 B1 B2 W1 W2 W3 E. unfold parse_3toks. set (s := b0 ++ _).
  rewrite (@round_word s None [] b0 w1 (sp :: b1 ++ w2 ++ sp :: b2 ++ w3 ++ rest)) by (auto; unfold s; try reflexivity; right; eauto). cbn iota.
  rewrite (@round_word s _ (b0 ++ w1 ++ [sp]) b1 w2 (sp :: b2 ++ w3 ++ rest)); auto; [|unfold s; rewrite <- !app_assoc; reflexivity|cbn [next_of app]; rewrite !app_length; cbn; lia|right; eauto]. cbn iota.
  rewrite (@round_word s _ (b0 ++ w1 ++ sp :: b1 ++ w2 ++ [sp]) b2 w3 rest); auto; [unfold s; rewrite <- !app_assoc; cbn [app]; rewrite <- !app_assoc; reflexivity|]. cbn [next_of]. repeat (rewrite !app_length || cbn [length]). lia.
Qed.
(** REFUTED: that fewer than three words are an error.  Without a blank after the last word, reading starts over at the front *)
Theorem c148_one_word_refuted : forall b0 w, blank b0 -> word w -> parse_3toks (b0 ++ w) = Some (w, w, w).
Proof.
  intros b0 w B W. assert (R : tok_round (b0 ++ w) None = Some (w, None)) by (rewrite (@round_word _ None [] b0 w []); auto; [rewrite app_nil_r; reflexivity|left; auto]). unfold parse_3toks. rewrite R. rewrite R. rewrite R. auto.
Qed.
Theorem c148_two_words_refuted : forall b0 w1 b1 w2, blank b0 -> blank b1 -> word w1 -> word w2 -> parse_3toks (b0 ++ w1 ++ sp :: b1 ++ w2) = Some (w1, w2, w1).
Proof.
  intros b0 w1 b1 w2 B0 B1 W1 W2. unfold parse_3toks. set (s := b0 ++ _).
  assert (R : tok_round s None = Some (w1, Some (length ([] ++ b0 ++ w1)))) by (rewrite (@round_word s None [] b0 w1 (sp :: b1 ++ w2)); auto; right; eauto). rewrite R.
  rewrite (@round_word s _ (b0 ++ w1 ++ [sp]) b1 w2 []); auto; [rewrite R; auto|unfold s; rewrite app_nil_r, <- !app_assoc; auto|cbn [next_of app]; rewrite !app_length; cbn; lia|left; auto].
Qed.
(** with a blank after the last word, and without words, the program ends with an exception *)
Theorem c148_trailing_blank : forall b0 w1 b1 w2 b2, blank b0 -> blank b1 -> blank b2 -> word w1 -> word w2 ->
  parse_3toks b0 = None /\ parse_3toks (b0 ++ w1 ++ sp :: b1) = None /\ parse_3toks (b0 ++ w1 ++ sp :: b1 ++ w2 ++ sp :: b2) = None.
Proof.
  intros b0 w1 b1 w2 b2 B0 B1 B2 W1 W2. split; [|split]; unfold parse_3toks.
  - rewrite (@round_blank b0 None [] b0) by auto. auto.
  - rewrite (@round_word _ None [] b0 w1 (sp :: b1)) by (auto; try reflexivity; right; eauto). cbn iota.
    rewrite (@round_blank _ _ (b0 ++ w1 ++ [sp]) b1); auto; [rewrite <- !app_assoc; auto|cbn [next_of app]; rewrite !app_length; cbn; lia].
  - rewrite (@round_word _ None [] b0 w1 (sp :: b1 ++ w2 ++ sp :: b2)) by (auto; try reflexivity; right; eauto). cbn iota.
    rewrite (@round_word _ _ (b0 ++ w1 ++ [sp]) b1 w2 (sp :: b2)); auto; [|rewrite <- !app_assoc; auto|cbn [next_of app]; rewrite !app_length; cbn; lia|right; eauto]. cbn iota.
    rewrite (@round_blank _ _ (b0 ++ w1 ++ sp :: b1 ++ w2 ++ [sp]) b2); auto; [rewrite <- !app_assoc; cbn [app]; rewrite <- !app_assoc; auto|cbn [next_of]; repeat (rewrite !app_length || cbn [length]); lia].
Qed.
(** these are all the cases *)
Lemma split_blank (s : str) : exists b r, s = b ++ r /\ blank b /\ (r = [] \/ exists c t, r = c :: t /\ c <> sp).
Proof.
  induction s as [|c s (b & r & -> & B & R)]; [exists [], []; repeat split; [constructor|auto]|]. destruct (ascii_dec c sp) as [->|N].
  - exists (sp :: b), r. split; auto. split; auto. constructor; auto.
  - exists [], (c :: b ++ r). split; auto. split; [constructor|]. right. eauto.
Qed.
Lemma split_word (s : str) : exists w r, s = w ++ r /\ Forall (fun c => c <> sp) w /\ ends_word r.
Proof.
  induction s as [|c s (w & r & -> & B & R)]; [exists [], []; repeat split; [constructor|left; auto]|]. destruct (ascii_dec c sp) as [->|N].
  - exists [], (sp :: w ++ r). split; auto. split; [constructor|]. right. eauto.
  - exists (c :: w), r. split; auto.
Qed.
Lemma split_token (s : str) : blank s \/ exists b w r, s = b ++ w ++ r /\ blank b /\ word w /\ ends_word r.
Proof.
  destruct (split_blank s) as (b & r & -> & B & [-> | (c & t & -> & N)]); [left; rewrite app_nil_r; auto|]. right. destruct (split_word (c :: t)) as (w & r & E & W & R). exists b, w, r. rewrite E. split; auto. split; auto. split; auto. split; auto.
  intros ->. cbn in E. subst r. destruct R as [R|(t' & R)]; congruence.
Qed.
Theorem c148_all_cases : forall s, match parse_3toks s with
  | None => blank s \/ (exists b0 w1 b1, blank b0 /\ word w1 /\ blank b1 /\ s = b0 ++ w1 ++ sp :: b1)
            \/ (exists b0 w1 b1 w2 b2, blank b0 /\ word w1 /\ blank b1 /\ word w2 /\ blank b2 /\ s = b0 ++ w1 ++ sp :: b1 ++ w2 ++ sp :: b2)
  | Some (x, y, z) => word x /\ word y /\ word z /\ exists b0, blank b0 /\
      ((exists b1 b2 rest, blank b1 /\ blank b2 /\ ends_word rest /\ s = b0 ++ x ++ sp :: b1 ++ y ++ sp :: b2 ++ z ++ rest)
       \/ (exists b1, blank b1 /\ z = x /\ s = b0 ++ x ++ sp :: b1 ++ y) \/ (y = x /\ z = x /\ s = b0 ++ x))
  end.
Proof.
  assert (XW : word ["x"%char]) by (split; [discriminate|constructor; [discriminate|constructor]]).
  intros s. destruct (split_token s) as [B|(b0 & w1 & r & -> & B0 & W1 & R)]; [rewrite (proj1 (@c148_trailing_blank s _ [] _ [] B (Forall_nil _) (Forall_nil _) XW XW)); auto|].
  destruct R as [-> | (r1 & ->)].
  { rewrite app_nil_r, (c148_one_word_refuted B0 W1). split; auto. split; auto. split; auto. exists b0. auto 6. }
  destruct (split_token r1) as [B1|(b1 & w2 & r & -> & B1 & W2 & R)].
  { rewrite (proj1 (proj2 (@c148_trailing_blank b0 w1 r1 w1 [] B0 B1 (Forall_nil _) W1 W1))). right. left. exists b0, w1, r1. auto. }
  destruct R as [-> | (r2 & ->)].
  { rewrite app_nil_r, (c148_two_words_refuted B0 B1 W1 W2). split; auto. split; auto. split; auto. exists b0. split; auto. right. left. exists b1. auto. }
  destruct (split_token r2) as [B2|(b2 & w3 & r & -> & B2 & W3 & R)].
  { rewrite (proj2 (proj2 (@c148_trailing_blank b0 w1 b1 w2 r2 B0 B1 B2 W1 W2))). right. right. exists b0, w1, b1, w2, r2. auto 10. }
  rewrite (c148_three_words B0 B1 B2 W1 W2 W3 R). split; auto. split; auto. split; auto. exists b0. split; auto. left. exists b1, b2, r. auto.
Qed.
(** the shape argument: exactly three pieces separated by commas, each a number *)
Notation comma := (","%char).
Definition no_comma (s : str) : Prop := ~ In comma s.
Lemma no_comma_filter a : no_comma a <-> filter is_comma a = [].
Proof.
  unfold no_comma. induction a as [|c a IH]; cbn; [tauto|]. unfold is_comma at 1. destruct (Ascii.eqb_spec c comma) as [->|N]; [split; [tauto|discriminate]|]. rewrite <- IH. tauto.
Qed.
Lemma no_comma_neg a : no_comma a -> Forall (fun c => is_comma c = false) a.
Proof. intros H. apply Forall_forall. intros c Hc. unfold is_comma. destruct (Ascii.eqb_spec c comma) as [->|]; auto. contradiction. Qed.
Lemma step_comma a r : no_comma a -> comma_step (a ++ comma :: r) = (a, r).
Proof.
  intros N. unfold comma_step. rewrite index_skip by (apply no_comma_neg; auto). cbn [index option_map]. change (is_comma comma) with true. cbn iota. cbn [option_map]. rewrite Nat.add_0_r. rewrite firstn_app, firstn_all, Nat.sub_diag, app_nil_r. f_equal.
  change (a ++ comma :: r) with (a ++ [comma] ++ r). rewrite app_assoc. apply skipn_app_len. rewrite app_length. cbn. lia.
Qed.
Lemma step_last a : no_comma a -> comma_step a = (a, []).
Proof. intros N. unfold comma_step. rewrite index_none by (apply no_comma_neg; auto). auto. Qed.
Lemma first_comma (s : str) n : length (filter is_comma s) = S n -> exists a r, s = a ++ comma :: r /\ no_comma a /\ length (filter is_comma r) = n.
Proof.
  induction s as [|c s IH]; intros H; [discriminate|]. cbn in H. destruct (is_comma c) eqn:E.
  - apply Ascii.eqb_eq in E. subst c. exists [], s. cbn in H. split; auto. split; [intros []|lia].
  - destruct (IH H) as (a & r & -> & N & L). exists (c :: a), r. split; auto. split; auto. intros [X|X]; [subst c; discriminate|contradiction].
Qed.
Theorem c148_shape : forall stoi s x y z, parse_shape stoi s = Some (x, y, z) <->
  exists a b c, no_comma a /\ no_comma b /\ no_comma c /\ s = a ++ comma :: b ++ comma :: c /\ stoi a = Some x /\ stoi b = Some y /\ stoi c = Some z.
Proof.
  intros stoi s x y z. unfold parse_shape. split.
  - destruct (Nat.eqb_spec (length (filter is_comma s)) 2) as [L|]; [|discriminate]. destruct (first_comma _ L) as (a & r & -> & A & L1). destruct (first_comma _ L1) as (b & c & -> & B & L2).
    assert (C : no_comma c) by (apply no_comma_filter; destruct (filter is_comma c); [auto|discriminate]). rewrite step_comma by auto. rewrite step_comma by auto. rewrite step_last by auto.
    intros H. exists a, b, c. destruct (stoi a); [|discriminate]. destruct (stoi b); [|discriminate]. destruct (stoi c); [|discriminate]. injection H as -> -> ->. auto 10.
  - intros (a & b & c & A & B & C & -> & E1 & E2 & E3). assert (L : length (filter is_comma (a ++ comma :: b ++ comma :: c)) = 2%nat).
    { apply no_comma_filter in A, B, C. rewrite filter_app. cbn [filter]. change (is_comma comma) with true. cbn iota. rewrite filter_app. cbn [filter]. change (is_comma comma) with true. cbn iota. rewrite A, B, C. reflexivity. }
    rewrite L. cbn [Nat.eqb]. rewrite step_comma by auto. rewrite step_comma by auto. rewrite step_last by auto. rewrite E1, E2, E3. auto.
Qed.
Example c148_examples : let a := "7"%char in let b := "8"%char in
  parse_3toks [sp; a; b; sp; sp; b; sp; a; a] = Some ([a; b], [b], [a; a]) /\ parse_3toks [a] = Some ([a], [a], [a]) /\
  parse_3toks [a; sp; b] = Some ([a], [b], [a]) /\ parse_3toks [a; sp; b; sp] = None /\
  parse_shape (fun s => Some (Z.of_nat (length s))) [a; comma; a; b; comma; b] = Some (1, 2, 1).
Proof. vm_compute. auto. Qed.

(** * C149: placing the input mesh in its grid *)
Local Open Scope Qc_scope.
Definition ax (p : q3) (i : nat) : Qc := let '(x, y, z) := p in match i with O => x | S O => y | _ => z end.
Lemma ax_ext p q : (forall i, ax p i = ax q i) -> p = q.
Proof. destruct p as [[x y] z], q as [[x' y'] z']. intros H. assert (A := H 0%nat). assert (B := H 1%nat). assert (C := H 2%nat). cbn in *. congruence. Qed.
Lemma ax_add p q i : ax (vadd p q) i = ax p i + ax q i.
Proof. destruct p as [[x y] z], q as [[x' y'] z']. destruct i as [|[|]]; auto. Qed.
Lemma ax_neg p i : ax (vneg p) i = - ax p i.
Proof. destruct p as [[x y] z]. destruct i as [|[|]]; auto. Qed.
Lemma ax_scale k p i : ax (vscale k p) i = k * ax p i.
Proof. destruct p as [[x y] z]. destruct i as [|[|]]; auto. Qed.
Lemma ax_min p q i : ax (qmin3 p q) i = qmin (ax p i) (ax q i).
Proof. destruct p as [[x y] z], q as [[x' y'] z']. destruct i as [|[|]]; auto. Qed.
Lemma ax_max p q i : ax (qmax3 p q) i = qmax (ax p i) (ax q i).
Proof. destruct p as [[x y] z], q as [[x' y'] z']. destruct i as [|[|]]; auto. Qed.
(** Specification: the tight bounds of a set of points *)
Definition bounds (V : list q3) (lo hi : q3) : Prop := forall i, (forall v, In v V -> ax lo i <= ax v i <= ax hi i) /\ (exists v, In v V /\ ax v i = ax lo i) /\ (exists v, In v V /\ ax v i = ax hi i).
Lemma fold_min_ax i t v : ax (fold_left qmin3 t v) i = fold_left qmin (map (fun p => ax p i) t) (ax v i).
Proof. revert v. induction t as [|w t IH]; intros v; cbn [fold_left map]; auto. rewrite IH, ax_min. auto. Qed.
Lemma fold_max_ax i t v : ax (fold_left qmax3 t v) i = fold_left qmax (map (fun p => ax p i) t) (ax v i).
Proof. revert v. induction t as [|w t IH]; intros v; cbn [fold_left map]; auto. rewrite IH, ax_max. auto. Qed.
Lemma fold_min_spec l a : (forall x, In x (a :: l) -> fold_left qmin l a <= x) /\ In (fold_left qmin l a) (a :: l).
Proof.
  revert a. induction l as [|b l IH]; intros a; cbn [fold_left]; [split; [intros x [<-|[]]; apply Qcle_refl|cbn; auto]|]. destruct (IH (qmin a b)) as [L M]. destruct (qmin_spec a b) as (A & B & C). split.
  - intros x [<-|[<-|Hx]]; [eapply Qcle_trans; [apply L; cbn; auto|auto]|eapply Qcle_trans; [apply L; cbn; auto|auto]|apply L; cbn; auto].
  - destruct M as [M|M]; [|cbn; auto]. rewrite <- M. destruct C as [-> | ->]; cbn; auto.
Qed.
Lemma fold_max_spec l a : (forall x, In x (a :: l) -> x <= fold_left qmax l a) /\ In (fold_left qmax l a) (a :: l).
Proof.
  revert a. induction l as [|b l IH]; intros a; cbn [fold_left]; [split; [intros x [<-|[]]; apply Qcle_refl|cbn; auto]|]. destruct (IH (qmax a b)) as [L M]. destruct (qmax_spec a b) as (A & B & C). split.
  - intros x [<-|[<-|Hx]]; [eapply Qcle_trans; [|apply L; cbn; auto]; auto|eapply Qcle_trans; [|apply L; cbn; auto]; auto|apply L; cbn; auto].
  - destruct M as [M|M]; [|cbn; auto]. rewrite <- M. destruct C as [-> | ->]; cbn; auto.
Qed.
Lemma bbox_bounds V lo hi : bbox V = Some (lo, hi) -> bounds V lo hi.
Proof.
  unfold bbox. destruct V as [|v t]; [discriminate|]. intros H. apply Some_inj in H. apply pair_equal_spec in H as [<- <-]. intros i. rewrite fold_min_ax, fold_max_ax. destruct (fold_min_spec (map (fun p => ax p i) t) (ax v i)) as [L1 M1], (fold_max_spec (map (fun p => ax p i) t) (ax v i)) as [L2 M2].
  change (ax v i :: map (fun p => ax p i) t) with (map (fun p => ax p i) (v :: t)) in *. split; [|split].
  - intros w Hw. split; [apply L1|apply L2]; apply in_map_iff; eauto.
  - apply in_map_iff in M1 as (w & E & I). eauto.
  - apply in_map_iff in M2 as (w & E & I). eauto.
Qed.
Lemma bounds_unique V lo hi lo' hi' : bounds V lo hi -> bounds V lo' hi' -> lo = lo' /\ hi = hi'.
Proof.
  intros B B'. split; apply ax_ext; intros i; destruct (B i) as (L & (v & Iv & Ev) & (w & Iw & Ew)), (B' i) as (L' & (v' & Iv' & Ev') & (w' & Iw' & Ew')); apply Qcle_antisym.
  - rewrite <- Ev'. apply L; auto.
  - rewrite <- Ev. apply L'; auto.
  - rewrite <- Ew. apply L'; auto.
  - rewrite <- Ew'. apply L; auto.
Qed.
Lemma bounds_bbox V lo hi : bounds V lo hi -> bbox V = Some (lo, hi).
Proof.
  intros B. destruct (bbox V) as [[lo' hi']|] eqn:E; [|destruct V; [destruct (B 0%nat) as (_ & (v & [] & _) & _)|discriminate]]. apply bbox_bounds in E. destruct (bounds_unique B E) as [-> ->]. auto.
Qed.
(** similarity: move by -c, then scale by k *)
Definition similar (k : Qc) (c : q3) (v : q3) : q3 := vscale k (vadd v (vneg c)).
Lemma ax_similar k c v i : ax (similar k c v) i = k * (ax v i - ax c i).
Proof. unfold similar. rewrite ax_scale, ax_add, ax_neg. ring. Qed.
Lemma bounds_similar V lo hi k c : 0 <= k -> bounds V lo hi -> bounds (map (similar k c) V) (similar k c lo) (similar k c hi).
Proof.
  intros K B i. destruct (B i) as (L & (v & Iv & Ev) & (w & Iw & Ew)). split; [|split].
  - intros u Hu. apply in_map_iff in Hu as (u' & <- & Hu). destruct (L _ Hu) as [L1 L2]. rewrite !ax_similar. rewrite !(Qcmult_comm k). split; apply Qcmult_le_compat_r; auto; clear - L1 L2; qc_lra.
  - exists (similar k c v). split; [apply in_map; auto|]. rewrite !ax_similar, Ev. auto.
  - exists (similar k c w). split; [apply in_map; auto|]. rewrite !ax_similar, Ew. auto.
Qed.
Definition middle (lo hi : q3) : q3 := vscale qhalf (vadd lo hi).
Lemma ax_middle lo hi i : ax (middle lo hi) i = qhalf * (ax lo i + ax hi i).
Proof. unfold middle. rewrite ax_scale, ax_add. auto. Qed.
Lemma half2 x : qhalf * x + qhalf * x = x.
Proof. assert (E : qhalf + qhalf = 1) by (apply Qc_is_canon; reflexivity). rewrite <- Qcmult_plus_distr_l, E. ring. Qed.
Lemma recenter_eq V lo hi : bbox V = Some (lo, hi) -> recenter V = map (similar 1 (middle lo hi)) V.
Proof. intros E. unfold recenter. rewrite E. apply map_ext. intros v. apply ax_ext. intros i. rewrite ax_similar, ax_add, ax_neg. change (box_center (lo, hi)) with (middle lo hi). ring. Qed.
Lemma max_coeff_spec p : (forall i, ax p i <= max_coeff p) /\ exists i, (i < 3)%nat /\ ax p i = max_coeff p.
Proof.
  destruct p as [[x y] z]. unfold max_coeff. destruct (qmax_spec x y) as (A & B & C), (qmax_spec (qmax x y) z) as (D & E & F). split.
  - intros [|[|i]]; cbn [ax]; auto; eapply Qcle_trans; eauto.
  - destruct F as [F|F]; [destruct C as [C|C]; [exists 0%nat|exists 1%nat]|exists 2%nat]; (split; [lia|]); cbn [ax]; congruence.
Qed.
Lemma sizes_ax lo hi i : ax (box_sizes (lo, hi)) i = ax hi i - ax lo i.
Proof. unfold box_sizes. cbn [fst snd]. rewrite ax_add, ax_neg. ring. Qed.
Lemma bounds_le V lo hi i : bounds V lo hi -> ax lo i <= ax hi i.
Proof. intros B. destruct (B i) as (L & (v & Iv & _) & _). destruct (L v Iv). eapply Qcle_trans; eauto. Qed.
Lemma normalized_eq V lo hi : bbox V = Some (lo, hi) -> let m := max_coeff (box_sizes (lo, hi)) in
  normalized V = if qeqb m 0 then None else Some (map (similar (1 / m) (middle lo hi)) V).
Proof. intros E m. unfold normalized. rewrite E. fold m. destruct (qeqb m 0); auto. Qed.
Lemma bbox_some V : V <> [] -> exists lo hi, bbox V = Some (lo, hi) /\ bounds V lo hi.
Proof. destruct V as [|v t]; [congruence|]. intros _. destruct (bbox (v :: t)) as [[lo hi]|] eqn:E; [|discriminate]. exists lo, hi. split; auto. apply bbox_bounds; auto. Qed.
Lemma sizes_pos V lo hi : bounds V lo hi -> 0 <= max_coeff (box_sizes (lo, hi)) /\ (max_coeff (box_sizes (lo, hi)) = 0 -> forall v w, In v V -> In w V -> v = w).
Proof.
  intros B. destruct (max_coeff_spec (box_sizes (lo, hi))) as (A & j & _ & Ej). assert (P := bounds_le j B). split; [rewrite <- Ej, sizes_ax; clear - P; qc_lra|].
  intros Z v w Hv Hw. apply ax_ext. intros i. specialize (A i). rewrite Z, sizes_ax in A. destruct (B i) as (L & _). destruct (L v Hv), (L w Hw). apply Qcle_antisym; qc_lra.
Qed.
Lemma similar_comp k c c' v : similar k c (similar 1 c' v) = similar k (vadd c' c) v.
Proof. apply ax_ext. intros i. rewrite !ax_similar, ax_add. ring. Qed.
Lemma pos_of m : 0 <= m -> qeqb m 0 = false -> 0 < m.
Proof. intros A B. apply qeqb_neq in B. apply Qcle_lt_or_eq in A as [A|A]; auto. congruence. Qed.
(** the placed mesh is the input moved and scaled *)
Theorem c149_similar : forall prescaled normalize V V', place_mesh prescaled normalize V = Some V' -> exists k c, 0 < k /\ V' = map (similar k c) V /\ (normalize = false -> k = 1).
Proof.
  assert (O : 0 < 1) by reflexivity. assert (I : forall V : list q3, V = map (similar 1 (0, 0, 0)) V). { intros V. rewrite <- (map_id V) at 1. apply map_ext. intros v. apply ax_ext. intros i. rewrite ax_similar. destruct i as [|[|]]; cbn [ax]; ring. }
  intros p n V V' H. destruct V as [|v0 t]. { exists 1, (0, 0, 0). split; auto. unfold place_mesh in H. assert (E : (if p then [] else recenter []) = []) by (destruct p; auto). rewrite E in H. destruct n; cbn in H; apply Some_inj in H; subst; auto. }
  destruct (@bbox_some (v0 :: t)) as (lo & hi & E & B); [discriminate|]. set (V := v0 :: t) in *. unfold place_mesh in H.
  assert (S : exists c, (if p then V else recenter V) = map (similar 1 c) V) by (destruct p; [exists (0, 0, 0); apply I|exists (middle lo hi); apply recenter_eq; auto]). destruct S as (c & S). rewrite S in H.
  destruct n; [|apply Some_inj in H; exists 1, c; auto]. assert (B' := bounds_similar c (Qclt_le_weak _ _ O) B). rewrite (@normalized_eq _ _ _ (bounds_bbox B')) in H. cbv zeta in H. destruct (sizes_pos B') as [P _]. set (m := max_coeff _) in *. destruct (qeqb m 0) eqn:Q; [discriminate|]. apply Some_inj in H. assert (M := pos_of P Q).
  exists (1 / m), (vadd c (middle (similar 1 c lo) (similar 1 c hi))). split.
  { unfold Qcdiv. rewrite Qcmult_1_l. destruct (Qclt_le_dec 0 (/ m)) as [X|X]; auto. exfalso. assert (Y : m * / m = 1) by (apply Qcmult_inv_r; intros Z; rewrite Z in M; discriminate M). assert (W := Qcmult_le_compat_r _ _ m X (Qclt_le_weak _ _ M)). rewrite Qcmult_comm, Y, Qcmult_0_l in W. apply W. reflexivity. }
  split; [|discriminate]. rewrite <- H, map_map. apply map_ext. intros v. apply similar_comp.
Qed.
Theorem c149_untouched : forall V, place_mesh true false V = Some V.
Proof. reflexivity. Qed.
(** it is centred at the origin, and with --normalize its longest side is 1 *)
Theorem c149_centred : forall prescaled normalize V V', V <> [] -> place_mesh prescaled normalize V = Some V' -> prescaled = false \/ normalize = true ->
  exists lo hi, bounds V' lo hi /\ (forall i, ax lo i = - ax hi i) /\ (normalize = true -> (forall i, ax hi i - ax lo i <= 1) /\ exists i, (i < 3)%nat /\ ax hi i - ax lo i = 1).
Proof.
  assert (O : 0 <= 1) by discriminate. intros p n V V' NE H D. destruct (bbox_some NE) as (lo & hi & E & B). unfold place_mesh in H.
  assert (C : forall k lo hi i, ax (similar k (middle lo hi) lo) i = - ax (similar k (middle lo hi) hi) i). { clear. intros k lo hi i. rewrite !ax_similar, ax_middle. assert (X := half2 (ax lo i + ax hi i)). set (h := qhalf * _) in *. assert (Y : ax hi i = h + h - ax lo i) by (rewrite X; ring). rewrite Y. ring. }
  destruct n.
  - set (V1 := if p then V else recenter V) in *. assert (N1 : V1 <> []) by (unfold V1; destruct p; auto; rewrite (@recenter_eq _ _ _ E); destruct V; [congruence|discriminate]). clearbody V1. destruct (bbox_some N1) as (lo1 & hi1 & E1 & B1). rewrite (@normalized_eq _ _ _ E1) in H. cbv zeta in H. destruct (sizes_pos B1) as [P _]. destruct (max_coeff_spec (box_sizes (lo1, hi1))) as (A & j & Hj & Ej). set (m := max_coeff _) in *. destruct (qeqb m 0) eqn:Q; [discriminate|]. apply Some_inj in H. subst V'. assert (M := pos_of P Q).
    assert (K : 0 <= 1 / m). { unfold Qcdiv. rewrite Qcmult_1_l. destruct (Qclt_le_dec (/ m) 0) as [X|X]; auto. exfalso. assert (Y : m * / m = 1) by (apply Qcmult_inv_r; intros Z; rewrite Z in M; discriminate M). assert (W := Qcmult_le_compat_r _ _ m (Qclt_le_weak _ _ X) P). rewrite Qcmult_comm, Y, Qcmult_0_l in W. apply W. reflexivity. }
    assert (MI : 1 / m * m = 1) by (field; intros Z; rewrite Z in M; discriminate M).
    exists (similar (1 / m) (middle lo1 hi1) lo1), (similar (1 / m) (middle lo1 hi1) hi1). split; [apply bounds_similar; auto|]. split; [intros i; apply C|]. intros _.
    assert (SZ : forall i, ax (similar (1 / m) (middle lo1 hi1) hi1) i - ax (similar (1 / m) (middle lo1 hi1) lo1) i = 1 / m * ax (box_sizes (lo1, hi1)) i) by (intros i; rewrite !ax_similar, sizes_ax; ring). split.
    + intros i. assert (W := Qcmult_le_compat_r _ _ (1 / m) (A i) K). rewrite (Qcmult_comm m), MI in W. rewrite SZ, Qcmult_comm. exact W.
    + exists j. split; auto. rewrite SZ, Ej. auto.
  - destruct D as [-> |]; [|discriminate]. rewrite (@recenter_eq _ _ _ E) in H. apply Some_inj in H. subst V'. eexists _, _. split; [apply bounds_similar; eauto|]. split; [intros i; apply C|discriminate].
Qed.
(** only normalizing a mesh whose vertices all coincide fails (it divides by zero) *)
Theorem c149_undefined : forall prescaled normalize V, place_mesh prescaled normalize V = None <-> normalize = true /\ V <> [] /\ forall v w, In v V -> In w V -> v = w.
Proof.
  intros p n V. destruct V as [|v0 t]. { unfold place_mesh. assert (E : (if p then [] else recenter []) = []) by (destruct p; auto). rewrite E. destruct n; cbn; split; try discriminate; tauto. }
  destruct (@bbox_some (v0 :: t)) as (lo & hi & E & B); [discriminate|]. set (V := v0 :: t) in *. unfold place_mesh. destruct n; [|split; [discriminate|intros [X _]; discriminate]].
  assert (S : exists c, forall v, (if p then V else recenter V) = map (similar 1 c) V /\ similar 1 c v = vadd v (vneg c)).
  { destruct p; [exists (0, 0, 0)|exists (middle lo hi)]; intros v; (split; [|apply ax_ext; intros i; rewrite ax_similar, ax_add, ax_neg; ring]); [|apply recenter_eq; auto]. rewrite <- (map_id V) at 1. apply map_ext. intros u. apply ax_ext. intros i. rewrite ax_similar. destruct i as [|[|]]; cbn [ax]; ring. }
  destruct S as (c & S). rewrite (proj1 (S v0)). assert (O : 0 <= 1) by discriminate. assert (B' := bounds_similar c O B). rewrite (@normalized_eq _ _ _ (bounds_bbox B')). cbv zeta.
  assert (SZ : forall i, ax (box_sizes (similar 1 c lo, similar 1 c hi)) i = ax hi i - ax lo i) by (intros i; rewrite sizes_ax, !ax_similar; ring).
  destruct (max_coeff_spec (box_sizes (similar 1 c lo, similar 1 c hi))) as (A & j & Hj & Ej). rewrite SZ in Ej. destruct (sizes_pos B') as [_ PZ]. set (m := max_coeff _) in *. split.
  - destruct (qeqb m 0) eqn:Q; [|discriminate]. intros _. apply qeqb_eq in Q. split; auto. split; [discriminate|]. intros v w Hv Hw. assert (X := PZ Q _ _ (in_map (similar 1 c) _ _ Hv) (in_map (similar 1 c) _ _ Hw)). apply ax_ext. intros i. assert (Y := f_equal (fun p => ax p i + ax c i) X). cbn beta in Y. rewrite !ax_similar in Y. replace (ax v i) with (1 * (ax v i - ax c i) + ax c i) by ring. rewrite Y. ring.
  - intros (_ & _ & EQ). assert (m = 0). { rewrite <- Ej. destruct (B j) as (_ & (v & Iv & <-) & (w & Iw & <-)). rewrite (EQ v w Iv Iw). ring. } rewrite H. auto.
Qed.
(** the box of the grid contains the mesh, strictly along every axis along which the mesh has an extent *)
Theorem c149_box : forall V lo hi v i, domain_box V = Some (lo, hi) -> In v V -> ax lo i <= ax v i <= ax hi i /\
  ((exists w, In w V /\ ax w i <> ax v i) -> ax lo i < ax v i < ax hi i).
Proof.
  intros V lo hi v i H I. unfold domain_box in H. destruct (bbox V) as [[l h]|] eqn:E; [|discriminate]. apply bbox_bounds in E. cbn [option_map] in H. apply Some_inj in H. apply pair_equal_spec in H as [<- <-]. cbn [fst snd]. unfold vhalf. rewrite !ax_add, !ax_neg, !ax_scale, sizes_ax.
  destruct (E i) as (L & _). destruct (L v I) as [L1 L2].
  assert (T : tenth * (qhalf * (ax h i - ax l i)) = Q2Qc (1 # 20) * (ax h i - ax l i)) by (rewrite Qcmult_assoc; f_equal; apply Qc_is_canon; reflexivity). rewrite T.
  assert (P : 0 <= ax h i - ax l i) by (clear - L1 L2; qc_lra). assert (K : 0 < Q2Qc (1 # 20)) by reflexivity.
  assert (P' : 0 <= Q2Qc (1 # 20) * (ax h i - ax l i)) by (rewrite <- (Qcmult_0_l (ax h i - ax l i)); apply Qcmult_le_compat_r; auto; apply Qclt_le_weak; auto). set (e := Q2Qc (1 # 20) * _) in *. split; [clearbody e; split; clear - L1 L2 P'; qc_lra|].
  intros (w & Hw & N). destruct (L w Hw) as [L3 L4]. assert (PP : 0 < ax h i - ax l i). { apply Qcle_lt_or_eq in P as [P|P]; auto. exfalso. apply N. apply Qcle_antisym; qc_lra. }
  assert (Q : 0 < e). { unfold e. rewrite <- (Qcmult_0_l (ax h i - ax l i)). apply Qcmult_lt_compat_r; auto. } clearbody e. split; clear - L1 L2 Q; qc_lra.
Qed.
(** REFUTED: that the box has a positive extent along every axis: a mesh flat along an axis gets a box of zero thickness, so a grid with zero spacing there *)
Theorem c149_flat_refuted : forall V lo hi x i, domain_box V = Some (lo, hi) -> (forall v, In v V -> ax v i = x) -> ax lo i = x /\ ax hi i = x.
Proof.
  intros V lo hi x i H F. unfold domain_box in H. destruct (bbox V) as [[l h]|] eqn:E; [|discriminate]. apply bbox_bounds in E. cbn [option_map] in H. apply Some_inj in H. apply pair_equal_spec in H as [<- <-]. cbn [fst snd]. unfold vhalf. rewrite !ax_add, !ax_neg, !ax_scale, sizes_ax.
  destruct (E i) as (_ & (v & Iv & <-) & (w & Iw & <-)). rewrite !F by auto. split; ring.
Qed.
Theorem c149_level : forall a, (0 <= level_of a /\ (0 <= a -> level_of a = a) /\ (a < 0 -> level_of a = 0))%Z.
Proof. intros a. unfold level_of. destruct (Z.leb_spec 0 a); lia. Qed.
Definition p3 (x y z : Z) : q3 := (Z2Qc x, Z2Qc y, Z2Qc z).
Definition qthis (p : q3) := let '(x, y, z) := p in (this x, this y, this z).
Example c149_example : let V := [p3 0 0 0; p3 4 2 0; p3 0 2 1] in
  option_map (map qthis) (place_mesh false true V) = Some [(-1 # 2, -1 # 4, -1 # 8); (1 # 2, 1 # 4, -1 # 8); (-1 # 2, 1 # 4, 1 # 8)]%Q /\
  option_map (fun '(a, b) => (qthis a, qthis b)) (domain_box V) = Some ((-1 # 5, -1 # 10, -1 # 20), (21 # 5, 21 # 10, 21 # 20))%Q.
Proof. vm_compute. auto. Qed.
Local Close Scope Qc_scope.

(** * C150: the information tool *)
Definition tally (rs : list Z) (v : Z) : option Z := if in_dec Z.eq_dec v rs then Some (Z.of_nat (count_occ Z.eq_dec rs v)) else None.
Lemma counts_spec rs : ssorted Z.compare (keys (region_counts rs)) /\ forall v, map_find Z.compare v (region_counts rs) = tally rs v.
Proof.
  unfold region_counts. assert (G : forall post pre m, ssorted Z.compare (keys m) -> (forall v, map_find Z.compare v m = tally pre v) ->
    let m' := fold_left (fun m v => map_set Z.compare v (match map_find Z.compare v m with Some n => n + 1 | None => 1 end) m) post m in
    ssorted Z.compare (keys m') /\ forall v, map_find Z.compare v m' = tally (pre ++ post) v).
  { induction post as [|r post IH]; intros pre m S H; cbn [fold_left]; [rewrite app_nil_r; auto|]. replace (pre ++ r :: post) with ((pre ++ [r]) ++ post) by (rewrite <- app_assoc; auto). apply IH; [apply (map_set_sorted Zcompare_total); auto|].
    intros v. rewrite (map_find_set Zcompare_total) by auto. rewrite !H. unfold tally. rewrite count_occ_app. cbn [count_occ].
    destruct (Z.compare_spec v r) as [->|L|L].
    - destruct (Z.eq_dec r r) as [_|X]; [|congruence]. destruct (in_dec Z.eq_dec r (pre ++ [r])) as [_|X]; [|exfalso; apply X, in_app_iff; cbn; auto]. destruct (in_dec Z.eq_dec r pre) as [_|N]; f_equal; [lia|]. rewrite (proj1 (count_occ_not_In Z.eq_dec pre r) N). lia.
    - destruct (Z.eq_dec r v); [lia|]. rewrite Nat.add_0_r. destruct (in_dec Z.eq_dec v pre) as [I|N], (in_dec Z.eq_dec v (pre ++ [r])) as [I'|N']; auto; exfalso; [apply N', in_app_iff; auto|apply in_app_iff in I' as [I'|[I'|[]]]; [auto|lia]].
    - destruct (Z.eq_dec r v); [lia|]. rewrite Nat.add_0_r. destruct (in_dec Z.eq_dec v pre) as [I|N], (in_dec Z.eq_dec v (pre ++ [r])) as [I'|N']; auto; exfalso; [apply N', in_app_iff; auto|apply in_app_iff in I' as [I'|[I'|[]]]; [auto|lia]]. }
  apply (G rs [] []); [constructor|]. intros v. unfold tally. destruct (in_dec Z.eq_dec v []) as [[]|]; auto.
Qed.
(** the report lists every region that occurs once, in increasing order, with the number of its cells *)
Theorem c150_counts : forall rs, StronglySorted Z.lt (map fst (region_counts rs)) /\
  forall v n, In (v, n) (region_counts rs) <-> In v rs /\ n = Z.of_nat (count_occ Z.eq_dec rs v).
Proof.
  intros rs. destruct (counts_spec rs) as [S F]. split.
  - clear F. change (map fst (region_counts rs)) with (keys (region_counts rs)). induction S as [|x l A S IH]; constructor; auto.
  - intros v n. specialize (F v). unfold tally in F. split.
    + intros I. assert (E : map_find Z.compare v (region_counts rs) = Some n) by (apply (map_find_Some Zcompare_total); auto). rewrite E in F. destruct (in_dec Z.eq_dec v rs); [|discriminate]. split; auto. congruence.
    + intros [I ->]. destruct (in_dec Z.eq_dec v rs); [|contradiction]. apply (map_find_Some Zcompare_total) in F; auto.
Qed.
(** the counts add up to the number of cells *)
Lemma sum_set m v : ssorted Z.compare (keys m) -> fold_right Z.add 0 (map snd (map_set Z.compare v (match map_find Z.compare v m with Some n => n + 1 | None => 1 end) m)) = fold_right Z.add 0 (map snd m) + 1.
Proof.
  induction m as [|[k n] m IH]; intros S; auto. cbn [map_find map_set]. inversion S as [|? ? A S']; subst. destruct (Z.compare_spec v k) as [->|L|L]; cbn [map snd fold_right].
  - lia.
  - lia.
  - rewrite IH by auto. lia.
Qed.
Theorem c150_total : forall rs, fold_right Z.add 0 (map snd (region_counts rs)) = Z.of_nat (length rs).
Proof.
  intros rs. unfold region_counts. assert (G : forall rs m, ssorted Z.compare (keys m) -> fold_right Z.add 0 (map snd (fold_left (fun m v => map_set Z.compare v (match map_find Z.compare v m with Some n => n + 1 | None => 1 end) m) rs m)) = fold_right Z.add 0 (map snd m) + Z.of_nat (length rs)).
  { clear. induction rs as [|r rs IH]; intros m S; cbn [fold_left length]; [lia|]. rewrite IH by (apply (map_set_sorted Zcompare_total); auto). rewrite sum_set by auto. lia. }
  rewrite G by constructor. cbn. lia.
Qed.
Lemma zput_len (A : Type) (l : list A) i x : length (zput l i x) = length l.
Proof. revert i. induction l; intros [|i]; cbn; auto. Qed.
(** for a mesh: the regions reported are those of regions(), over all cells *)
Theorem c150_mesh : forall m rs v n, regions3 m = Some rs -> In (v, n) (region_counts rs) -> 0 < n <= Boundary3.cell_size m.
Proof.
  intros m rs v n E I. apply c150_counts in I as [I ->]. apply (count_occ_In Z.eq_dec) in I. assert (L := count_occ_bound Z.eq_dec v rs). assert (LR : length rs = (length (m_cells m) + length (m_cubes m))%nat).
  { unfold regions3 in E. assert (G : forall l acc (rs : list Z) n, (forall a, acc = Some a -> length a = n) -> fold_left (fun acc '(c, r) => match acc with Some l => if (0 <=? c) && (c <? Boundary3.cell_size m) then Some (zput l (Z.to_nat c) r) else None | None => None end) l acc = Some rs -> length rs = n).
    { clear. induction l as [|[c r] l IH]; intros acc rs n H E; cbn [fold_left] in E; auto. eapply IH; [|exact E]. intros a Ea. destruct acc as [a0|]; [|discriminate]. destruct (_ && _); [|discriminate]. injection Ea as <-. rewrite zput_len. auto. }
    apply (G _ _ _ (length (m_cells m) + length (m_cubes m))%nat) in E; auto. intros a Ea. injection Ea as <-. rewrite app_length, map_length, repeat_length. auto. }
  unfold Boundary3.cell_size, num_cut_cells. lia.
Qed.
Lemma enum_In (A : Type) (l : list A) k a : In (k, a) (enum l) <-> 0 <= k /\ nth_error l (Z.to_nat k) = Some a.
Proof.
  unfold enum, zseq. rewrite Nat2Z.id. assert (G : forall (l : list A) s, In (k, a) (combine (map Z.of_nat (seq s (length l))) l) <-> Z.of_nat s <= k /\ nth_error l (Z.to_nat k - s) = Some a).
  { clear. induction l as [|b l IH]; intros s; cbn [length seq map combine In]; [split; [tauto|]; intros [_ H]; destruct (Z.to_nat k - s)%nat; discriminate|]. rewrite IH. split.
    - intros [E|[H E]]; [injection E as <- <-; split; [lia|]; rewrite Nat2Z.id, Nat.sub_diag; auto|]. split; [lia|]. replace (Z.to_nat k - s)%nat with (S (Z.to_nat k - S s)) by lia. auto.
    - intros [H E]. destruct (Z.to_nat k - s)%nat as [|n] eqn:D; [left; injection E as ->; f_equal; lia|]. right. split; [lia|]. replace (Z.to_nat k - S s)%nat with n by lia. auto. }
  rewrite (G l 0%nat), Nat.sub_0_r. tauto.
Qed.
(** a cell is reported outside exactly along the axes where its grid cell is out of range; nothing is reported iff every cut cell lies in a grid cell *)
Theorem c150_outside : forall shape cells k d, (forall g, In g cells -> length g = length shape) ->
  (In (k, d) (outside_report shape cells) <-> exists g i m, 0 <= k /\ nth_error cells (Z.to_nat k) = Some g /\ nth_error g d = Some i /\ nth_error shape d = Some m /\ (i < 0 \/ m <= i)).
Proof.
  intros shape cells k d LEN. unfold outside_report. rewrite in_flat_map. split.
  - intros ([k' g] & I & H). apply enum_In in I as [K N]. apply in_flat_map in H as ([d' [i m]] & I & H). destruct ((i <? 0) || (m <=? i)) eqn:T; [|destruct H]. destruct H as [H|[]]. injection H as -> ->.
    assert (X : nth_error (combine g shape) d = Some (i, m)). { assert (G : forall (l : list (Z * Z)) s n, In (d, (i, m)) (combine (seq s n) l) -> (s <= d)%nat /\ nth_error l (d - s) = Some (i, m)).
      { clear. induction l as [|x l IH]; intros s n H; [rewrite combine_nil in H; destruct H|]. destruct n as [|n]; [destruct H|]. cbn [seq combine In] in H. destruct H as [H|H]; [injection H as <- ->; rewrite Nat.sub_diag; auto|]. apply IH in H as [H1 H2]. split; [lia|]. replace (d - s)%nat with (S (d - S s)) by lia. auto. }
      apply G in I as [_ I]. rewrite Nat.sub_0_r in I. auto. }
    exists g, i, m. split; auto. split; auto. assert (Y : nth_error g d = Some i /\ nth_error shape d = Some m). { clear - X. revert g shape X. induction d as [|d IH]; intros [|a g] [|b shape] X; try discriminate; cbn in X |- *; [injection X as -> ->; auto|auto]. }
    destruct Y. split; auto. split; auto. apply orb_true_iff in T as [T|T]; [apply Z.ltb_lt in T|apply Z.leb_le in T]; auto.
  - intros (g & i & m & K & N & G & M & T). exists (k, g). split; [apply enum_In; auto|]. apply in_flat_map. exists (d, (i, m)). split.
    + assert (LG : length g = length shape) by (eapply LEN, nth_error_In; eauto). rewrite <- LG. clear - G M LG. assert (H : forall s, In ((s + d)%nat, (i, m)) (combine (seq s (length g)) (combine g shape))); [|apply (H 0%nat)]. revert g shape G M LG. induction d as [|d IH]; intros [|a g] [|b shape] G M LG s; try discriminate; cbn [length seq combine In]; cbn in G, M.
      * left. rewrite Nat.add_0_r. congruence.
      * right. replace (s + S d)%nat with (S s + d)%nat by lia. apply IH; auto.
    + assert (E : (i <? 0) || (m <=? i) = true) by (apply orb_true_iff; rewrite Z.ltb_lt, Z.leb_le; auto). rewrite E. cbn. auto.
Qed.
Theorem c150_inside : forall shape cells, (forall g, In g cells -> length g = length shape) -> (outside_report shape cells = [] <-> forall g, In g cells -> Forall2 (fun i m => 0 <= i < m) g shape).
Proof.
  intros shape cells LEN. split.
  - intros E g I. apply In_nth_error in I as (k & N). assert (LG := LEN g (nth_error_In _ _ N)). assert (H : forall d i m, nth_error g d = Some i -> nth_error shape d = Some m -> 0 <= i < m).
    { intros d i m G M. destruct (Z.ltb_spec i 0) as [C|C]; [|destruct (Z.leb_spec m i) as [C'|C']; [|lia]]; exfalso; (assert (X : In (Z.of_nat k, d) (outside_report shape cells)); [apply c150_outside; auto; exists g, i, m; rewrite Nat2Z.id; split; [lia|auto]|rewrite E in X; destruct X]). }
    clear - H LG. revert shape LG H. induction g as [|i g IH]; intros [|m shape] LG H; try discriminate; constructor; [apply (H 0%nat); auto|]. apply IH; auto. intros d. apply (H (S d)).
  - intros H. destruct (outside_report shape cells) as [|[k d] l] eqn:E; auto. exfalso. assert (X : In (k, d) (outside_report shape cells)) by (rewrite E; cbn; auto). apply c150_outside in X as (g & i & m & _ & N & G & M & T); auto. specialize (H g (nth_error_In _ _ N)). clear - H G M T. revert d G M. induction H as [|a b g shape A F IH]; intros [|d] G M; try discriminate; cbn in G, M; [injection G as ->; injection M as ->; lia|eauto].
Qed.
Example c150_example : region_counts [2; 0; 2; 1; 2; 0] = [(0, 2); (1, 1); (2, 3)] /\ outside_report [2; 2; 3] [[0; 1; 2]; [2; 1; 3]; [-1; 0; 0]] = [(1, 0%nat); (1, 2%nat); (2, 0%nat)].
Proof. vm_compute. auto. Qed.
