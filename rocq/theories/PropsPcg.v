(** C141: the conjugate gradient solver of the pressure example. *)
From Coq Require Import Permutation.
From Verif Require Import Base Num CoordMask Vertex VertexProofs Sparse Laplace.
Set Implicit Arguments.
Local Open Scope Qc_scope.

(** ** specification *)
(** scalar product over the indices *)
Definition inner (ix : list Z) (x y : Z -> Qc) : Qc := lsum (fun i => x i * y i) ix.
(** a symmetric linear map *)
Record symmetric (ix : list Z) (A : vec -> vec) : Prop := {
  sy_ext : forall x y, (forall i, x i = y i) -> forall i, A x i = A y i;
  sy_lin : forall k x y i, A (fun j => x j + k * y j) i = A x i + k * A y i;
  sy_sym : forall x y, inner ix (A x) y = inner ix x (A y) }.
Definition semidefinite (ix : list Z) (A : vec -> vec) : Prop := forall x, 0 <= inner ix x (A x).
Definition definite (ix : list Z) (A : vec -> vec) : Prop := forall x, (exists i, In i ix /\ x i <> 0) -> 0 < inner ix x (A x).
(** the largest entry of x in absolute value is at most e *)
Definition below (ix : list Z) (x : vec) (e : Qc) : Prop := forall i, In i ix -> - e <= x i /\ x i <= e.
(** the state after k passes *)
Fixpoint after (ix : list Z) (A P : vec -> vec) (b : vec) (k : nat) : option pcg_state :=
  match k with O => Some (pcg_init ix A P b) | S n => match after ix A P b n with Some s => pcg_step ix A P s | None => None end end.

Section Pcg.
  Variables (ix : list Z) (A P : vec -> vec) (b : vec).
  Notation dot := (inner ix).
  Lemma dot_sym x y : dot x y = dot y x. Proof. apply lsum_ext. intros; ring. Qed.
  Lemma dot_ext x x' y : (forall i, In i ix -> x i = x' i) -> dot x y = dot x' y.
  Proof. intros H. apply lsum_ext. intros i I. rewrite H; auto. Qed.
  Lemma dot_ext_r x y y' : (forall i, In i ix -> y i = y' i) -> dot x y = dot x y'.
  Proof. intros H. rewrite dot_sym, (dot_ext _ _ _ H). apply dot_sym. Qed.
  Lemma dot_axpy k x y w : dot (axpy k x y) w = dot y w + k * dot x w.
  Proof. unfold inner, axpy. rewrite <- lsum_scale, <- lsum_add. apply lsum_ext. intros; ring. Qed.
  Lemma dot_axpy_r k x y w : dot w (axpy k x y) = dot w y + k * dot w x.
  Proof. rewrite dot_sym, dot_axpy, (dot_sym y), (dot_sym x). auto. Qed.
  Lemma dot_0 y : dot (fun _ => 0) y = 0. Proof. apply lsum_0. intros; ring. Qed.
  Hypothesis SA : symmetric ix A.
  Hypothesis SP : symmetric ix P.
  Lemma A_axpy k x y i : A (axpy k x y) i = A y i + k * A x i.
  Proof. unfold axpy. apply (sy_lin SA). Qed.
  Lemma A_zero i : A (fun _ => 0) i = 0.
  Proof. assert (H := sy_lin SA (- (1)) (fun _ => 0) (fun _ => 0) i). rewrite (sy_ext SA (fun _ => 0 + - (1) * 0) (fun _ => 0)) in H by (intros; ring). rewrite H at 1. ring. Qed.

  (** one pass *)
  Lemma step_spec s s' : pcg_step ix A P s = Some s' ->
    let pAp := dot (s_p s) (s_Ap s) in let alpha := s_rdz s / pAp in let beta := s_rdz s' / s_rdz s in
    pAp <> 0 /\ s_rdz s <> 0 /\ s_x s' = axpy alpha (s_p s) (s_x s) /\ s_r s' = axpy (- alpha) (s_Ap s) (s_r s) /\ s_z s' = P (s_r s') /\ s_rdz s' = dot (s_r s') (s_z s') /\
    s_p s' = axpy beta (s_p s) (s_z s') /\ s_Ap s' = A (s_p s').
  Proof.
    unfold pcg_step. change (vdotp ix) with dot. destruct (qeqb (dot (s_p s) (s_Ap s)) 0) eqn:E; [discriminate|]. destruct (qeqb (s_rdz s) 0) eqn:E2; [discriminate|]. intros H. apply Some_inj in H. subst s'. cbn [s_x s_r s_z s_p s_Ap s_rdz].
    apply qeqb_neq in E, E2. do 6 (split; [auto|]). split; auto. f_equal. unfold Qcdiv. ring.
  Qed.
  (** what every state satisfies *)
  Lemma state_spec k s : after ix A P b k = Some s -> (forall i, s_r s i = b i - A (s_x s) i) /\ s_z s = P (s_r s) /\ s_Ap s = A (s_p s) /\ s_rdz s = dot (s_r s) (s_z s).
  Proof.
    revert s. induction k as [|k IH]; intros s H; cbn [after] in H.
    - apply Some_inj in H. subst s. cbn. auto.
    - destruct (after ix A P b k) as [s0|]; [|discriminate]. destruct (IH s0 eq_refl) as (R & Z & AP & D). destruct (step_spec _ H) as (N1 & N2 & X' & R' & Z' & D' & P' & AP'). split; [|auto].
      intros i. rewrite R', X'. unfold axpy at 1. rewrite A_axpy, R, AP. ring.
  Qed.
  Lemma after_prev k s : after ix A P b (S k) = Some s -> exists s0, after ix A P b k = Some s0 /\ pcg_step ix A P s0 = Some s.
  Proof. cbn [after]. destruct (after ix A P b k) as [s0|]; [|discriminate]. eauto. Qed.
  Lemma after_le j k s : (j <= k)%nat -> after ix A P b k = Some s -> exists t, after ix A P b j = Some t.
  Proof. intros L. revert s. induction L as [|k L IH]; intros s H; [eauto|]. apply after_prev in H as (s0 & H & _). eauto. Qed.
  (** residuals are orthogonal and directions conjugate *)
  Lemma conjugate k : forall s, after ix A P b k = Some s -> dot (s_r s) (s_p s) = s_rdz s /\
    forall j t, (j < k)%nat -> after ix A P b j = Some t -> dot (s_r s) (s_z t) = 0 /\ dot (s_p s) (s_Ap t) = 0 /\ dot (s_r s) (s_p t) = 0.
  Proof.
    induction k as [|k IH]; intros s' H.
    - split; [|intros; lia]. cbn in H. apply Some_inj in H. subst s'. reflexivity.
    - apply after_prev in H as (s & H & ST). destruct (IH s H) as [RP IHj]. destruct (state_spec _ H) as (R & Z & AP & D). destruct (step_spec _ ST) as (N1 & N2 & X' & R' & Z' & D' & P' & AP').
      set (pAp := dot (s_p s) (s_Ap s)) in *. set (alpha := s_rdz s / pAp) in *. assert (AN : alpha <> 0). { unfold alpha. intros E. apply N2. replace (s_rdz s) with (s_rdz s / pAp * pAp) by (field; auto). rewrite E. ring. }
      (* r' against the directions *)
      assert (RPj : forall j t, (j <= k)%nat -> after ix A P b j = Some t -> dot (s_r s') (s_p t) = 0).
      { intros j t L T. rewrite R', dot_axpy. destruct (Nat.eq_dec j k) as [->|NE].
        - rewrite H in T. apply Some_inj in T. subst t. rewrite RP, (dot_sym (s_Ap s)). fold pAp. unfold alpha. field. auto.
        - destruct (IHj j t ltac:(lia) T) as (_ & C & Q). rewrite Q. destruct (state_spec _ T) as (_ & _ & APt & _). rewrite AP, (sy_sym SA), <- APt, C. ring. }
      assert (RZj : forall j t, (j <= k)%nat -> after ix A P b j = Some t -> dot (s_r s') (s_z t) = 0).
      { intros [|j] t L T.
        - assert (E : s_z t = s_p t) by (cbn in T; apply Some_inj in T; subst t; reflexivity). rewrite E. apply (RPj 0%nat); auto.
        - destruct (after_prev _ T) as (t0 & T0 & STt). destruct (step_spec _ STt) as (_ & _ & _ & _ & _ & _ & Pt & _). assert (Q := RPj _ _ L T). rewrite Pt, dot_axpy_r in Q. rewrite (RPj j t0) in Q by (auto; lia). rewrite <- Q. ring. }
      assert (RPP : dot (s_r s') (s_p s') = s_rdz s') by (rewrite P', dot_axpy_r, (RPj k s), D' by auto; ring).
      split; auto. intros j t L T. split; [apply (RZj j); auto; lia|]. split; [|apply (RPj j); auto; lia].
      (* conjugacy *)
      rewrite P', dot_axpy. assert (ZR : forall u j', (j' <= k)%nat -> after ix A P b j' = Some u -> dot (s_z s') (s_r u) = 0).
      { intros u j' L' U. destruct (state_spec _ U) as (_ & Zu & _). rewrite Z', (sy_sym SP), <- Zu. apply (RZj j'); auto. }
      destruct (Nat.eq_dec j k) as [->|NE].
      + rewrite H in T. apply Some_inj in T. subst t. fold pAp. assert (E : dot (s_z s') (s_r s') = 0 + (- alpha) * dot (s_z s') (s_Ap s)). { rewrite R'. rewrite dot_axpy_r, (ZR s k) by auto. ring. }
        assert (E2 : dot (s_z s') (s_Ap s) = - (s_rdz s' / alpha)). { rewrite D', (dot_sym (s_r s')), E. field. auto. } rewrite E2. unfold alpha. field. auto.
      + destruct (IHj j t ltac:(lia) T) as (_ & C & _). destruct (@after_le (S j) k s) as [u U]; [lia|auto|]. destruct (after_prev _ U) as (t' & T' & STu). rewrite T in T'. apply Some_inj in T'. subst t'. destruct (step_spec _ STu) as (M1 & M2 & _ & Ru & _).
        set (al := s_rdz t / dot (s_p t) (s_Ap t)) in *. assert (ALN : al <> 0). { unfold al. intros E. apply M2. replace (s_rdz t) with (s_rdz t / dot (s_p t) (s_Ap t) * dot (s_p t) (s_Ap t)) by (field; auto). rewrite E. ring. }
        assert (E : dot (s_z s') (s_r u) = dot (s_z s') (s_r t) + (- al) * dot (s_z s') (s_Ap t)) by (rewrite Ru, dot_axpy_r; auto). rewrite (ZR u (S j)), (ZR t j) in E by (auto; lia).
        assert (E2 : dot (s_z s') (s_Ap t) = 0). { apply (Qcmult_integral_l _ _ ALN). rewrite Qcmult_0_l in E || idtac. assert (Q : al * dot (s_z s') (s_Ap t) = 0 - (0 + - al * dot (s_z s') (s_Ap t))) by ring. rewrite Q, <- E. ring. }
        rewrite E2, (dot_sym (s_p s)), (dot_sym (s_Ap t)), C. ring.
  Qed.
  (** a semidefinite map is zero on its null directions *)
  Hypothesis PSD : semidefinite ix A.
  Lemma null_direction p : dot p (A p) = 0 -> forall y, dot (A p) y = 0.
  Proof.
    intros H y. rewrite (sy_sym SA). destruct (Qc_eq_dec (dot p (A y)) 0) as [|N]; auto. exfalso.
    set (a := dot p (A y)) in *. set (c := dot y (A y)). assert (HC : 0 <= c) by apply PSD. assert (C1 : 0 < c + 1) by qc_lra. assert (C1' : c + 1 <> 0) by (intros E; rewrite E in C1; revert C1; apply Qclt_not_eq || idtac; unfold Qclt; cbn; q_push; intros; lra).
    set (t := - (a / (c + 1))). assert (S := PSD (axpy t y p)). rewrite dot_axpy in S. rewrite (dot_ext_r p (A (axpy t y p)) (axpy t (A y) (A p))) in S by (intros; rewrite A_axpy; unfold axpy; auto). rewrite (dot_ext_r y (A (axpy t y p)) (axpy t (A y) (A p))) in S by (intros; rewrite A_axpy; unfold axpy; auto).
    rewrite !dot_axpy_r, H in S. fold a c in S. rewrite <- (sy_sym SA y p), (dot_sym (A y)) in S. fold a in S. unfold t in S.
    assert (E : 0 + - (a / (c + 1)) * a + - (a / (c + 1)) * (a + - (a / (c + 1)) * c) = - (a * a * (c + 1 + 1) * / ((c + 1) * (c + 1)))) by (field; auto). rewrite E in S.
    assert (AA : 0 < a * a). { destruct (Qclt_le_dec a 0) as [L|L]; [replace (a * a) with ((- a) * (- a)) by ring; assert (0 < - a) by qc_lra|assert (0 < a) by (apply Qcle_lt_or_eq in L as [L|L]; auto; congruence)]; match goal with |- 0 < ?u * ?v => replace 0 with (0 * v) by ring; apply Qcmult_lt_compat_r; auto end. }
    assert (X : 0 < a * a * (c + 1 + 1) * / ((c + 1) * (c + 1))).
    { assert (I : 0 < / ((c + 1) * (c + 1))). { assert (D : 0 < (c + 1) * (c + 1)) by (replace 0 with (0 * (c + 1)) by ring; apply Qcmult_lt_compat_r; auto). destruct (Qclt_le_dec 0 (/ ((c + 1) * (c + 1)))) as [|L]; auto. exfalso.
        assert (K : / ((c + 1) * (c + 1)) * ((c + 1) * (c + 1)) <= 0 * ((c + 1) * (c + 1))) by (apply Qcmult_le_compat_r; [auto|apply Qclt_le_weak; auto]). rewrite Qcmult_0_l, Qcmult_comm, Qcmult_inv_r in K by (intros E'; rewrite E' in D; revert D; unfold Qclt; cbn; q_push; intros; lra). revert K. unfold Qcle; cbn. q_push. intros. lra. }
      assert (C2 : 0 < c + 1 + 1) by qc_lra. replace 0 with (0 * / ((c + 1) * (c + 1))) by ring. apply Qcmult_lt_compat_r; auto. replace 0 with (0 * (c + 1 + 1)) by ring. apply Qcmult_lt_compat_r; auto. }
    revert S X. generalize (a * a * (c + 1 + 1) * / ((c + 1) * (c + 1))) as w. intros w. intros. qc_lra.
  Qed.
  Hypothesis PD : definite ix P.
  Variable y : vec.
  Hypothesis SOL : forall i, In i ix -> A y i = b i.
  (** a pass is possible while the residual is not zero *)
  Lemma step_defined k s : after ix A P b k = Some s -> (exists i, In i ix /\ s_r s i <> 0) -> exists s', pcg_step ix A P s = Some s'.
  Proof.
    intros H NZ. destruct (state_spec _ H) as (R & Z & AP & D). destruct (conjugate _ H) as [RP _]. assert (DP : 0 < s_rdz s) by (rewrite D, Z; apply PD; auto).
    assert (NR : s_rdz s <> 0) by (intros E; rewrite E in DP; revert DP; unfold Qclt; cbn; q_push; intros; lra). assert (NP : dot (s_p s) (s_Ap s) <> 0).
    { intros E. rewrite AP in E. assert (ND := null_direction _ E). apply NR. rewrite <- RP, (dot_ext (s_r s) (axpy (- (1)) (A (s_x s)) (A y)) (s_p s)) by (intros i I; rewrite R, <- SOL by auto; unfold axpy; ring).
      rewrite dot_axpy, !(sy_sym SA), (dot_sym y), (dot_sym (s_x s)), !ND. ring. }
    unfold pcg_step. change (vdotp ix) with dot. rewrite (proj2 (qeqb_neq _ _) NP), (proj2 (qeqb_neq _ _) NR). eauto.
  Qed.
End Pcg.

(** ** norms *)
Lemma qabs_le v e : qabs v <= e <-> - e <= v /\ v <= e.
Proof. unfold qabs. destruct (qltb v 0) eqn:E; [apply qltb_lt in E|apply qltb_ge in E]; (split; [intros H; split; qc_lra|intros [H1 H2]; qc_lra]). Qed.
Lemma norm_le ix x e : 0 <= e -> (norm_inf ix x <= e <-> below ix x e).
Proof.
  intros HE. unfold norm_inf, below. assert (G : forall l a, fold_left (fun a i => let b := qabs (x i) in if qltb a b then b else a) l a <= e <-> a <= e /\ forall i, In i l -> - e <= x i /\ x i <= e).
  { induction l as [|i l IH]; intros a; cbn [fold_left].
    - split; [intros H; split; [auto|intros ? []]|intros [H _]; auto].
    - cbv zeta. rewrite IH. destruct (qltb a (qabs (x i))) eqn:E; [apply qltb_lt in E|apply qltb_ge in E]; split.
      + intros [H1 H2]. split; [qc_lra|]. intros j [<-|I]; auto. apply qabs_le; auto.
      + intros [H1 H2]. split; [apply qabs_le; apply H2; cbn; auto|intros; apply H2; cbn; auto].
      + intros [H1 H2]. split; auto. intros j [<-|I]; auto. apply qabs_le. qc_lra.
      + intros [H1 H2]. split; auto. intros; apply H2; cbn; auto. }
  rewrite G. split; [tauto|auto].
Qed.
Lemma norm_nonneg ix x : 0 <= norm_inf ix x.
Proof.
  unfold norm_inf. assert (G : forall l a, 0 <= a -> 0 <= fold_left (fun a i => let b := qabs (x i) in if qltb a b then b else a) l a); [|apply G, Qcle_refl].
  induction l as [|i l IH]; intros a H; cbn [fold_left]; auto. apply IH. cbv zeta. destruct (qltb a (qabs (x i))) eqn:E; auto. apply qltb_lt in E. qc_lra.
Qed.
(** ** n + 1 vectors on n indices are dependent *)
Definition comb (cs : list Qc) (vs : list vec) (i : Z) : Qc := lsum (fun cv => fst cv * snd cv i) (combine cs vs).
Lemma comb_app c1 c2 v1 v2 i : length c1 = length v1 -> comb (c1 ++ c2) (v1 ++ v2) i = comb c1 v1 i + comb c2 v2 i.
Proof. intros L. unfold comb. rewrite <- lsum_app. f_equal. revert v1 L. induction c1 as [|c c1 IH]; intros [|v v1] L; cbn in L; try discriminate; cbn; auto. rewrite IH by lia. auto. Qed.
Lemma comb_cons c cs v vs i : comb (c :: cs) (v :: vs) i = c * v i + comb cs vs i. Proof. reflexivity. Qed.
Lemma comb_map (a : vec -> Qc) (v : vec) cs vs i : comb cs (map (fun w => (fun j => w j - a w * v j) : vec) vs) i = comb cs vs i - comb cs (map (fun w => (fun _ => a w) : vec) vs) 0 * v i.
Proof. revert cs. induction vs as [|w vs IH]; intros [|c cs]; cbn [map]; unfold comb in *; cbn [combine lsum fst snd]; try ring. rewrite IH. ring. Qed.
Lemma comb_zero cs vs i : (forall v, In v vs -> v i = 0) -> comb cs vs i = 0.
Proof. intros H. apply lsum_0. intros [c v] I. apply in_combine_r in I. cbn. rewrite (H v I). ring. Qed.
Lemma dependent : forall ix vs, (length ix < length vs)%nat -> exists cs, length cs = length vs /\ (exists c, In c cs /\ c <> 0) /\ forall i, In i ix -> comb cs vs i = 0.
Proof.
  induction ix as [|i ix IH]; intros vs L.
  - destruct vs as [|v vs]; [cbn in L; lia|]. exists (1 :: repeat 0 (length vs)). split; [cbn; rewrite repeat_length; auto|]. split; [exists 1; split; [cbn; auto|discriminate]|intros ? []].
  - assert (DEC : (exists v, In v vs /\ v i <> 0) \/ forall v, In v vs -> v i = 0).
    { clear. induction vs as [|v vs [(w & I & N)|H]]; [right; intros ? []|left; exists w; cbn; auto|]. destruct (Qc_eq_dec (v i) 0) as [E|N]; [right; intros w [<-|I]; auto|left; exists v; cbn; auto]. }
    destruct DEC as [(v & I & N)|H].
    + apply in_split in I as (l1 & l2 & ->). rewrite app_length in L. cbn [length] in L. destruct (IH (map (fun w => (fun j => w j - w i / v i * v j) : vec) (l1 ++ l2))) as (cs & LC & (c & IC & NC) & Z); [rewrite map_length, app_length; lia|].
      rewrite map_length, app_length in LC. set (c1 := firstn (length l1) cs). set (c2 := skipn (length l1) cs). assert (EC : cs = c1 ++ c2) by (symmetry; apply firstn_skipn). assert (L1 : length c1 = length l1) by (unfold c1; rewrite firstn_length; lia). assert (L2 : length c2 = length l2) by (unfold c2; rewrite skipn_length; lia).
      set (k := - comb cs (map (fun w => (fun _ => w i / v i) : vec) (l1 ++ l2)) 0). exists (c1 ++ k :: c2). split; [rewrite !app_length; cbn [length]; lia|]. split; [exists c; split; auto; rewrite EC in IC; apply in_app_or in IC as [IC|IC]; apply in_or_app; cbn; auto|].
      assert (E : forall j, comb (c1 ++ k :: c2) (l1 ++ v :: l2) j = comb cs (map (fun w => (fun j => w j - w i / v i * v j) : vec) (l1 ++ l2)) j).
      { intros j. rewrite (comb_map (fun w => w i / v i) v), comb_app, comb_cons by auto. assert (EQ : comb cs (l1 ++ l2) j = comb c1 l1 j + comb c2 l2 j) by (rewrite <- comb_app, <- EC by auto; auto). rewrite EQ. unfold k. unfold vec. ring. }
      intros j [<-|J]; rewrite E; auto. apply comb_zero. intros w W. apply in_map_iff in W as (u & <- & _). field. auto.
    + destruct (IH vs) as (cs & LC & NZ & Z); [cbn in L; lia|]. exists cs. split; auto. split; auto. intros j [<-|J]; auto. apply comb_zero. auto.
Qed.

Lemma below0_dec ix (r : vec) : (exists i, In i ix /\ r i <> 0) \/ forall i, In i ix -> r i = 0.
Proof. induction ix as [|i l [(j & J & N)|B]]; [right; intros ? []|left; exists j; cbn; auto|]. destruct (Qc_eq_dec (r i) 0) as [Z|N]; [right; intros j [<-|J]; auto|left; exists i; cbn; auto]. Qed.
Section Results.
  Variables (ix : list Z) (A P : vec -> vec) (b : vec).
  Hypothesis SA : symmetric ix A.
  Lemma loop_spec eps fuel : forall k s s', after ix A P b k = Some s -> pcg_loop fuel ix A P eps s = Some s' ->
    exists k', (k <= k' <= k + fuel)%nat /\ after ix A P b k' = Some s' /\ ((k' < k + fuel)%nat -> norm_inf ix (s_r s') <= eps).
  Proof.
    induction fuel as [|n IH]; intros k s s' H L; cbn [pcg_loop] in L.
    - apply Some_inj in L. subst s'. exists k. split; [lia|]. split; auto. intros; lia.
    - destruct (qltb eps (norm_inf ix (s_r s))) eqn:E.
      + destruct (pcg_step ix A P s) as [s1|] eqn:ST; [|discriminate]. destruct (IH (S k) s1 s') as (k' & R & H' & X); auto; [cbn [after]; rewrite H; auto|]. exists k'. split; [lia|]. split; auto. intros; apply X; lia.
      + apply Some_inj in L. subst s'. apply qltb_ge in E. exists k. split; [lia|]. auto.
  Qed.
  Lemma init_residual i : s_r (pcg_init ix A P b) i = b i.
  Proof. cbn. rewrite (A_zero SA). ring. Qed.
  (** C141. The solver makes k <= 9 passes and returns x; unless k = 9, the residual b - A x is at most 1e-5 times the largest entry of b. *)
  Theorem c141_result x : pcg_solve ix A P b = Some x -> exists k s, (k <= 9)%nat /\ after ix A P b k = Some s /\ s_x s = x /\ (forall i, s_r s i = b i - A x i) /\
    ((k < 9)%nat -> forall e, below ix b e -> below ix (fun i => b i - A x i) (e * Q2Qc (1 # 100000))).
  Proof.
    unfold pcg_solve. cbv zeta. destruct (pcg_loop 9 ix A P (norm_inf ix (s_r (pcg_init ix A P b)) * epsilon5) (pcg_init ix A P b)) as [s|] eqn:L; [|discriminate]. cbn [option_map]. intros E. apply Some_inj in E. subst x.
    destruct (@loop_spec _ 9%nat 0%nat (pcg_init ix A P b) s eq_refl L) as (k & R & H & X). cbn [Nat.add] in *. destruct (state_spec _ _ SA _ H) as (RR & _). exists k, s. split; [lia|]. do 3 (split; [auto|]). intros K e B. specialize (X K).
    destruct ix as [|i0 ix'] eqn:EI; [intros i []|rewrite <- EI in *]. assert (HE : 0 <= e). { destruct (B i0) as [B1 B2]; [rewrite EI; cbn; auto|]. qc_lra. }
    assert (N : norm_inf ix (s_r (pcg_init ix A P b)) <= e). { apply norm_le; auto. intros i I. rewrite init_residual. auto. }
    assert (Y : norm_inf ix (s_r s) <= e * Q2Qc (1 # 100000)). { eapply Qcle_trans; [exact X|]. apply Qcmult_le_compat_r; auto. discriminate. }
    assert (HE' : 0 <= e * Q2Qc (1 # 100000)). { replace 0 with (0 * Q2Qc (1 # 100000)) by ring. apply Qcmult_le_compat_r; auto. discriminate. }
    apply norm_le in Y; auto. intros i I. rewrite <- RR. apply Y. auto.
  Qed.
  Hypothesis SP : symmetric ix P.
  Hypothesis PSD : semidefinite ix A.
  (** the search directions *)
  Definition direction (j : nat) : vec := match after ix A P b j with Some t => s_p t | None => fun _ => 0 end.
  Lemma x_comb k : forall s, after ix A P b k = Some s -> exists a, forall i, s_x s i = lsum (fun j => a j * direction j i) (seq 0 k).
  Proof.
    induction k as [|k IH]; intros s H.
    - exists (fun _ => 0). cbn in H. apply Some_inj in H. subst s. intros i. reflexivity.
    - destruct (after_prev _ _ _ _ _ H) as (s0 & H0 & ST). destruct (IH _ H0) as (a & E). destruct (step_spec _ _ _ _ ST) as (_ & _ & X & _). set (al := s_rdz s0 / _) in X. exists (fun j => if Nat.eqb j k then al else a j).
      intros i. rewrite X, seq_S, lsum_app. cbn [lsum Nat.add]. rewrite Nat.eqb_refl. unfold axpy. rewrite E. unfold direction at 3. rewrite H0.
      rewrite (@lsum_ext _ (fun j => (if Nat.eqb j k then al else a j) * direction j i) (fun j => a j * direction j i)); [ring|]. intros j J. apply in_seq in J. rewrite (proj2 (Nat.eqb_neq j k)) by lia. auto.
  Qed.
  Lemma dot_comb (f : nat -> Qc) (v : nat -> vec) l w : inner ix w (fun i => lsum (fun j => f j * v j i) l) = lsum (fun j => f j * inner ix w (v j)) l.
  Proof. unfold inner. rewrite (@lsum_ext _ _ (fun i => lsum (fun j => w i * (f j * v j i)) l)) by (intros; rewrite <- lsum_scale; auto). rewrite lsum_swap. apply lsum_ext. intros j _. rewrite <- lsum_scale. apply lsum_ext. intros; ring. Qed.
  (** what the iteration minimises: x.Ax - 2 b.x *)
  Definition energy (x : vec) : Qc := inner ix x (A x) - (1 + 1) * inner ix b x.
  (** C141. After k passes the iterate has the least energy among all combinations of the k directions searched. *)
  Theorem c141_best k s c : after ix A P b k = Some s -> energy (s_x s) <= energy (fun i => lsum (fun j => c j * direction j i) (seq 0 k)).
  Proof.
    intros H. destruct (x_comb _ H) as (a & E). destruct (state_spec _ _ SA _ H) as (R & _). set (y := fun i => lsum (fun j => c j * direction j i) (seq 0 k)). set (d := fun i => lsum (fun j => (c j - a j) * direction j i) (seq 0 k)).
    assert (Y : forall i, y i = axpy 1 d (s_x s) i). { intros i. unfold axpy, d, y. rewrite E. rewrite Qcmult_1_l, <- lsum_add. apply lsum_ext. intros; ring. }
    assert (RD : inner ix (s_r s) d = 0). { unfold d. rewrite dot_comb. apply lsum_0. intros j J. apply in_seq in J. destruct (@after_le ix A P b j k s) as [t T]; [lia|auto|]. unfold direction. rewrite T. destruct (conjugate _ SA SP _ H) as [_ C]. destruct (C j t) as (_ & _ & Q); [lia|auto|]. rewrite Q. ring. }
    unfold energy. rewrite (dot_ext ix y (axpy 1 d (s_x s)) (A y)) by auto. rewrite (dot_ext_r ix (axpy 1 d (s_x s)) (A y) (axpy 1 (A d) (A (s_x s)))) by (intros i _; rewrite (sy_ext SA y (axpy 1 d (s_x s)) Y), (A_axpy SA); unfold axpy; ring).
    rewrite (dot_ext_r ix b y (axpy 1 d (s_x s))) by auto. rewrite !dot_axpy, !dot_axpy_r. assert (RD' : inner ix b d - inner ix (A (s_x s)) d = 0). { rewrite <- RD. rewrite (@dot_ext ix (s_r s) (axpy (- (1)) (A (s_x s)) b) d) by (intros; rewrite R; unfold axpy; ring). rewrite dot_axpy. ring. }
    assert (D := PSD d). rewrite (sy_sym SA (s_x s) d) in RD'. assert (D2 : inner ix d (A (s_x s)) = inner ix (s_x s) (A d)) by (rewrite <- (sy_sym SA d (s_x s)); apply dot_sym). rewrite D2. revert D RD'. generalize (inner ix d (A d)) (inner ix (s_x s) (A d)) (inner ix b d) (inner ix (s_x s) (A (s_x s))) (inner ix b (s_x s)). intros. qc_lra.
  Qed.
  Hypothesis PD : definite ix P.
  Variable y : vec.
  Hypothesis SOL : forall i, In i ix -> A y i = b i.
  (** C141. If A is positive semidefinite, the preconditioner positive definite and A y = b has a solution, no pass divides by zero. *)
  Theorem c141_defined : exists x, pcg_solve ix A P b = Some x.
  Proof.
    unfold pcg_solve. cbv zeta. set (eps := norm_inf ix _ * epsilon5). assert (HE : 0 <= eps). { unfold eps. replace 0 with (0 * epsilon5) by ring. apply Qcmult_le_compat_r; [apply norm_nonneg|discriminate]. }
    assert (G : forall fuel k s, after ix A P b k = Some s -> exists s', pcg_loop fuel ix A P eps s = Some s'); [|destruct (G 9%nat 0%nat _ eq_refl) as [s' ->]; cbn; eauto].
    induction fuel as [|n IH]; intros k s H; cbn [pcg_loop]; [eauto|]. destruct (qltb eps (norm_inf ix (s_r s))) eqn:E; [|eauto]. apply qltb_lt in E.
    destruct (@step_defined ix A P b SA SP PSD PD y SOL k s H) as [s1 ST].
    { destruct (below0_dec ix (s_r s)) as [D|B]; auto. exfalso. assert (B' : below ix (s_r s) 0) by (intros i I; rewrite B by auto; split; discriminate). apply norm_le in B'; [|apply Qcle_refl]. qc_lra. }
    rewrite ST. apply (IH (S k)). cbn [after]. rewrite H. auto.
  Qed.
  Lemma zero_after s : after ix A P b (length ix) = Some s -> forall i, In i ix -> s_r s i = 0.
  Proof.
    intros H. destruct (below0_dec ix (s_r s)) as [NZ|Z]; auto. exfalso. destruct (@step_defined ix A P b SA SP PSD PD y SOL _ s H NZ) as [s1 ST]. set (n := length ix) in *.
    assert (ST' : after ix A P b (S n) = Some s1) by (cbn [after]; rewrite H; auto).
    assert (PA : forall k, (k <= n)%nat -> exists t, after ix A P b k = Some t /\ inner ix (s_p t) (A (s_p t)) <> 0).
    { intros k K. destruct (@after_le ix A P b (S k) (S n) s1) as [u U]; [lia|auto|]. destruct (after_prev _ _ _ _ _ U) as (t & T & STt). exists t. split; auto. destruct (state_spec _ _ SA _ T) as (_ & _ & AP & _). rewrite <- AP. apply (step_spec _ _ _ _ STt). }
    assert (OR : forall j k, (j <= n)%nat -> (k <= n)%nat -> j <> k -> inner ix (A (direction k)) (direction j) = 0).
    { assert (LT : forall j k, (j < k)%nat -> (k <= n)%nat -> inner ix (direction k) (A (direction j)) = 0).
      { intros j k L K. destruct (PA k K) as (t & T & _). destruct (PA j) as (u & U & _); [lia|]. unfold direction. rewrite T, U. destruct (conjugate _ SA SP _ T) as [_ C]. destruct (C j u L U) as (_ & Q & _). destruct (state_spec _ _ SA _ U) as (_ & _ & AP & _). rewrite <- AP. auto. }
      intros j k J K N. destruct (Nat.lt_total j k) as [L|[L|L]]; [|contradiction|rewrite dot_sym; apply LT; auto]. rewrite (sy_sym SA). apply LT; auto. }
    destruct (dependent ix (map direction (seq 0 (S n)))) as (cs & LC & (c & IC & NC) & CZ); [rewrite map_length, seq_length; unfold n; lia|]. rewrite map_length, seq_length in LC.
    apply In_nth with (d := 0) in IC as (k & LK & EK). rewrite LC in LK. assert (CE : forall i, comb cs (map direction (seq 0 (S n))) i = lsum (fun j => nth j cs 0 * direction j i) (seq 0 (S n))).
    { intros i. clear - LC. revert LC. generalize (S n) as N. intros N LC. subst N. unfold comb. assert (G : forall o, lsum (fun cv => fst cv * snd cv i) (combine cs (map direction (seq o (length cs)))) = lsum (fun j => nth (j - o) cs 0 * direction j i) (seq o (length cs))).
      { induction cs as [|c cs IH]; intros o; cbn [length seq map combine lsum fst snd]; auto. rewrite Nat.sub_diag, IH. cbn [nth]. f_equal. apply lsum_ext. intros j J. apply in_seq in J. replace (j - o)%nat with (S (j - S o)) by lia. auto. }
      rewrite G. apply lsum_ext. intros j _. rewrite Nat.sub_0_r. auto. }
    assert (Q : inner ix (A (direction k)) (fun i => lsum (fun j => nth j cs 0 * direction j i) (seq 0 (S n))) = 0). { unfold inner. apply lsum_0. intros i I. rewrite <- CE, CZ by auto. ring. }
    rewrite dot_comb in Q. rewrite (@lsum_single _ _ _ k) in Q; [|apply seq_NoDup|apply in_seq; lia|intros j J N; apply in_seq in J; rewrite OR by (auto; lia); ring]. destruct (PA k) as (t & T & NT); [lia|]. unfold direction in Q. rewrite T in Q. rewrite dot_sym in Q. rewrite EK in Q.
    apply NT. apply (Qcmult_integral_l _ _ NC Q).
  Qed.
  (** C141. A system with at most nine unknowns is solved to the tolerance. *)
  Theorem c141_small : (length ix <= 9)%nat -> exists x, pcg_solve ix A P b = Some x /\ forall e, below ix b e -> below ix (fun i => b i - A x i) (e * Q2Qc (1 # 100000)).
  Proof.
    intros L. destruct c141_defined as [x X]. exists x. split; auto. intros e B. destruct (c141_result X) as (k & s & K & H & SX & R & ACC). destruct (Nat.eq_dec k 9) as [->|N]; [|apply ACC; auto; lia].
    assert (ZR : forall i, In i ix -> s_r s i = 0).
    { destruct (Nat.eq_dec (length ix) 9) as [E|NE]; [apply zero_after; rewrite E; auto|]. destruct (@after_le ix A P b (length ix) 9 s L H) as [t T]. assert (Z := zero_after T). destruct (@after_le ix A P b (S (length ix)) 9 s ltac:(lia) H) as [u U]. destruct (after_prev _ _ _ _ _ U) as (t' & T' & ST). rewrite T in T'. apply Some_inj in T'. subst t'.
      destruct (step_spec _ _ _ _ ST) as (_ & NR & _). exfalso. apply NR. destruct (state_spec _ _ SA _ T) as (_ & _ & _ & ->). unfold inner. apply lsum_0. intros i I. rewrite Z by auto. ring. }
    intros i I. rewrite <- R, ZR by auto. assert (HE : 0 <= e) by (destruct (B i I); qc_lra). assert (HE' : 0 <= e * Q2Qc (1 # 100000)). { replace 0 with (0 * Q2Qc (1 # 100000)) by ring. apply Qcmult_le_compat_r; auto. discriminate. } split; qc_lra.
  Qed.
End Results.

(** ** the preconditioner *)
(** sum of g over 0 <= j < n with the condition *)
Lemma lsum_if (A : Type) (f : A -> bool) (g : A -> Qc) l : lsum (fun x => if f x then g x else 0) l = lsum g (filter f l).
Proof. induction l as [|a l IH]; cbn [filter lsum]; auto. destruct (f a); cbn [lsum]; rewrite IH; ring. Qed.
Lemma lsum_same (A : Type) (g : A -> Qc) l l' : NoDup l -> NoDup l' -> (forall x, In x l <-> In x l') -> lsum g l = lsum g l'.
Proof. intros. apply lsum_perm, NoDup_Permutation; auto. Qed.
Lemma lsum_below n i g : (0 <= i <= n)%Z -> lsum g (zseq i) = lsum (fun j => if (j <? i)%Z then g j else 0) (zseq n).
Proof.
  intros H. rewrite (lsum_if (fun j => (j <? i)%Z)). apply lsum_same; [apply zseq_nodup|apply NoDup_filter, zseq_nodup|]. intros x. rewrite filter_In, !zseq_in, Z.ltb_lt. lia.
Qed.
Lemma lsum_above n i g : (0 <= i < n)%Z -> lsum g (map (fun t => i + 1 + t)%Z (zseq (n - 1 - i))) = lsum (fun j => if (i <? j)%Z then g j else 0) (zseq n).
Proof.
  intros H. rewrite (lsum_if (fun j => (i <? j)%Z)). apply lsum_same; [apply FinFun.Injective_map_NoDup; [intros a b; lia|apply zseq_nodup]|apply NoDup_filter, zseq_nodup|].
  intros x. rewrite filter_In, in_map_iff, zseq_in, Z.ltb_lt. split; [intros (t & <- & I); apply zseq_in in I; lia|intros X; exists (x - i - 1)%Z; rewrite zseq_in; lia].
Qed.
Section Ldlt.
  Variables (n : nat) (l : Z -> Z -> Qc).
  Notation N := (Z.of_nat n).
  Lemma forward_out b k i : (i < 0 \/ Z.of_nat k <= i)%Z -> forward l b k i = 0.
  Proof. revert i. induction k as [|k IH]; intros i H; cbn [forward]; auto. unfold upd. destruct (Z.eqb_spec i (Z.of_nat k)); [lia|]. apply IH. lia. Qed.
  Lemma forward_le b k i : (i < Z.of_nat k)%Z -> forall d, forward l b (k + d) i = forward l b k i.
  Proof. intros H. induction d as [|d IH]; [rewrite Nat.add_0_r; auto|]. rewrite Nat.add_succ_r. cbn [forward]. unfold upd. destruct (Z.eqb_spec i (Z.of_nat (k + d))); [lia|auto]. Qed.
  Lemma forward_spec b i : (0 <= i < N)%Z -> forward l b n i = b i - lsum (fun j => if (j <? i)%Z then l i j * forward l b n j else 0) (zseq N).
  Proof.
    intros H. set (k := Z.to_nat i). assert (EK : Z.of_nat k = i) by (unfold k; lia). replace n with (S k + (n - S k))%nat at 1 by lia. rewrite forward_le by lia. cbn [forward]. unfold upd. rewrite EK, Z.eqb_refl. f_equal.
    rewrite <- (@lsum_below N i) by lia. apply lsum_ext. intros j J. apply zseq_in in J. replace n with (k + (n - k))%nat by lia. rewrite forward_le by lia. auto.
  Qed.
  Lemma backward_out b k i : (i < N - Z.of_nat k \/ N <= i)%Z -> backward n l b k i = 0.
  Proof. revert i. induction k as [|k IH]; intros i H; cbn [backward]; auto. unfold upd. destruct (Z.eqb_spec i (N - 1 - Z.of_nat k)); [lia|]. apply IH. lia. Qed.
  Lemma backward_le b k i : (N - Z.of_nat k <= i)%Z -> forall d, backward n l b (k + d) i = backward n l b k i.
  Proof. intros H. induction d as [|d IH]; [rewrite Nat.add_0_r; auto|]. rewrite Nat.add_succ_r. cbn [backward]. unfold upd. destruct (Z.eqb_spec i (N - 1 - Z.of_nat (k + d))); [lia|auto]. Qed.
  Lemma backward_spec b i : (0 <= i < N)%Z -> backward n l b n i = b i - lsum (fun j => if (i <? j)%Z then l j i * backward n l b n j else 0) (zseq N).
  Proof.
    intros H. set (k := Z.to_nat (N - 1 - i)). assert (EK : Z.of_nat k = (N - 1 - i)%Z) by (unfold k; lia). assert (EB := @backward_le b (S k) i ltac:(lia) (n - S k)%nat). replace (S k + (n - S k))%nat with n in EB by lia. rewrite EB. cbn [backward]. unfold upd. rewrite EK. replace (N - 1 - (N - 1 - i))%Z with i by lia. rewrite Z.eqb_refl. f_equal.
    rewrite <- (@lsum_above N i) by lia. apply lsum_ext. intros j J. apply in_map_iff in J as (t & <- & T). apply zseq_in in T. assert (EB2 := @backward_le b k (i + 1 + t)%Z ltac:(lia) (n - k)%nat). replace (k + (n - k))%nat with n in EB2 by lia. rewrite EB2. auto.
  Qed.
  Variable dinv : vec.
  Lemma ldlt_inner b b' : inner (zseq N) (ldlt_apply n l dinv b) b' = lsum (fun i => dinv i * forward l b n i * forward l b' n i) (zseq N).
  Proof.
    set (x := ldlt_apply n l dinv b). set (y := forward l b' n).
    assert (X : forall i, (0 <= i < N)%Z -> dinv i * forward l b n i = x i + lsum (fun j => if (i <? j)%Z then l j i * x j else 0) (zseq N)). { intros i H. unfold x, ldlt_apply. rewrite (backward_spec (fun i => dinv i * forward l b n i) H) at 1. ring. }
    assert (Y : forall i, (0 <= i < N)%Z -> b' i = y i + lsum (fun j => if (j <? i)%Z then l i j * y j else 0) (zseq N)). { intros i H. unfold y. rewrite (forward_spec b' H) at 1. ring. }
    unfold inner. rewrite (@lsum_ext _ _ (fun i => x i * y i + lsum (fun j => if (j <? i)%Z then x i * l i j * y j else 0) (zseq N))).
    2:{ intros i I. apply zseq_in in I. rewrite Y by auto. rewrite Qcmult_plus_distr_r, <- lsum_scale. f_equal. apply lsum_ext. intros j _. destruct (j <? i)%Z; ring. }
    rewrite lsum_add, lsum_swap, <- lsum_add. apply lsum_ext. intros i I. apply zseq_in in I. rewrite X by auto. rewrite Qcmult_plus_distr_l. f_equal. rewrite Qcmult_comm, <- lsum_scale. apply lsum_ext. intros j _. destruct (i <? j)%Z; ring.
  Qed.
  Lemma forward_ext b b' k : (forall i, b i = b' i) -> forall i, forward l b k i = forward l b' k i.
  Proof. intros H. induction k as [|k IH]; intros i; cbn [forward]; auto. unfold upd. destruct (i =? Z.of_nat k)%Z; auto. rewrite H. f_equal. apply lsum_ext. intros; rewrite IH; auto. Qed.
  Lemma backward_ext b b' k : (forall i, b i = b' i) -> forall i, backward n l b k i = backward n l b' k i.
  Proof. intros H. induction k as [|k IH]; intros i; cbn [backward]; auto. unfold upd. destruct (i =? _)%Z; auto. rewrite H. f_equal. apply lsum_ext. intros; rewrite IH; auto. Qed.
  Lemma forward_lin a b b' k : forall i, forward l (fun j => b j + a * b' j) k i = forward l b k i + a * forward l b' k i.
  Proof.
    induction k as [|k IH]; intros i; cbn [forward]; [ring|]. unfold upd. destruct (i =? Z.of_nat k)%Z; auto. rewrite (@lsum_ext _ _ (fun j => l (Z.of_nat k) j * forward l b k j + a * (l (Z.of_nat k) j * forward l b' k j))) by (intros; rewrite IH; ring). rewrite lsum_add, lsum_scale. ring.
  Qed.
  Lemma backward_lin a b b' k : forall i, backward n l (fun j => b j + a * b' j) k i = backward n l b k i + a * backward n l b' k i.
  Proof.
    induction k as [|k IH]; intros i; cbn [backward]; [ring|]. unfold upd. destruct (i =? _)%Z; auto. rewrite (@lsum_ext _ _ (fun j => l j (N - 1 - Z.of_nat k)%Z * backward n l b k j + a * (l j (N - 1 - Z.of_nat k)%Z * backward n l b' k j))) by (intros; rewrite IH; ring). rewrite lsum_add, lsum_scale. ring.
  Qed.
  (** C141. Applying the preconditioner is a symmetric linear map whatever its factors, and positive definite if the pivots are positive. *)
  Theorem c141_preconditioner : symmetric (zseq N) (ldlt_apply n l dinv) /\ ((forall i, (0 <= i < N)%Z -> 0 < dinv i) -> definite (zseq N) (ldlt_apply n l dinv)).
  Proof.
    split; [split|].
    - intros x y H i. unfold ldlt_apply. apply backward_ext. intros j. rewrite (forward_ext x y n H). auto.
    - intros k x y i. unfold ldlt_apply. rewrite <- backward_lin. apply backward_ext. intros j. rewrite forward_lin. ring.
    - intros x y. rewrite (dot_sym _ x), !ldlt_inner. apply lsum_ext. intros; ring.
    - intros DP x (i & I & NX). rewrite dot_sym, ldlt_inner. apply zseq_in in I.
      assert (NY : exists j, In j (zseq N) /\ forward l x n j <> 0).
      { destruct (below0_dec (zseq N) (forward l x n)) as [E|Z]; auto. exfalso. apply NX. assert (F := forward_spec x I). rewrite (Z i) in F by (apply zseq_in; auto). rewrite lsum_0 in F; [|intros j J; rewrite Z by auto; destruct (j <? i)%Z; ring]. replace (x i) with (x i - 0) by ring. symmetry. exact F. }
      destruct NY as (j & J & NY). assert (G : forall f, (forall a, In a (zseq N) -> 0 <= f a) -> forall a, In a (zseq N) -> 0 < f a -> 0 < lsum f (zseq N)).
      { intros f. generalize (zseq N) as L. induction L as [|c L IH]; intros F a [] P; cbn [lsum]; subst; [assert (X := @lsum_nonneg _ f L ltac:(intros; apply F; cbn; auto)); qc_lra|]. assert (X : 0 < lsum f L) by (eapply IH; eauto; intros; apply F; cbn; auto). assert (Y := F c ltac:(cbn; auto)). qc_lra. }
      apply G with (a := j); auto.
      + intros a A. apply zseq_in in A. assert (D := DP a A). generalize dependent (dinv a). intros d D. generalize (forward l x n a). intros v. revert D. unfold Qcle, Qclt. q_push. intros. nra.
      + apply zseq_in in J. assert (D := DP j J). generalize dependent (dinv j). intros d D. generalize dependent (forward l x n j). intros v V. assert (V' : 0 < v * v). { destruct (Qclt_le_dec 0 v) as [P|P]; [revert P; unfold Qclt; q_push; intros; nra|]. assert (v < 0) by (apply Qcle_lt_or_eq in P as [P|P]; [auto|contradiction]). revert H. unfold Qclt. q_push. intros; nra. } revert D V'. rewrite <- Qcmult_assoc. generalize (v * v). intros. revert D V'. unfold Qclt. q_push. intros. nra.
  Qed.
End Ldlt.
