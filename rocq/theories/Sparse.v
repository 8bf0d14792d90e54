(** Eigen::SparseMatrix built by setFromTriplets (external): duplicates are summed.  Exact rational coefficients. *)
From Coq Require Import Permutation.
From Verif Require Import Base Num.
Set Implicit Arguments.
Local Open Scope Qc_scope.
Local Arguments Qcplus : simpl never. Local Arguments Qcmult : simpl never. Local Arguments Qcopp : simpl never. Local Arguments Qcminus : simpl never.
Local Arguments Qcdiv : simpl never. Local Arguments Qcinv : simpl never. Local Arguments Q2Qc : simpl never.

Definition triplet : Type := (Z * Z * Qc)%type.
Definition t_row (t : triplet) : Z := fst (fst t).
Definition t_col (t : triplet) : Z := snd (fst t).
Definition t_val (t : triplet) : Qc := snd t.
(** sum over a list *)
Section Sum.
  Variables (A : Type) (f : A -> Qc).
  Fixpoint lsum (l : list A) : Qc := match l with [] => 0 | a :: t => f a + lsum t end.
End Sum.
(** the coefficient at (r, c) of the matrix with these triplets *)
Definition coeff (ts : list triplet) (r c : Z) : Qc := lsum (fun t => if ((t_row t =? r) && (t_col t =? c))%Z%bool then t_val t else 0) ts.
(** (M x) at row r; (M^T y) at column c *)
Definition mulv (ts : list triplet) (x : Z -> Qc) (r : Z) : Qc := lsum (fun t => if (t_row t =? r)%Z then t_val t * x (t_col t) else 0) ts.
Definition mulTv (ts : list triplet) (y : Z -> Qc) (c : Z) : Qc := lsum (fun t => if (t_col t =? c)%Z then t_val t * y (t_row t) else 0) ts.
(** 0, 1, ..., n-1 *)
Definition zseq (n : Z) : list Z := map Z.of_nat (seq 0 (Z.to_nat n)).

Lemma lsum_app (A : Type) (f : A -> Qc) l l' : lsum f (l ++ l') = lsum f l + lsum f l'.
Proof. induction l as [|a l IH]; cbn; [ring|]. rewrite IH. ring. Qed.
Lemma lsum_ext (A : Type) (f g : A -> Qc) l : (forall a, In a l -> f a = g a) -> lsum f l = lsum g l.
Proof. induction l as [|a l IH]; intros H; cbn; auto. rewrite IH, (H a); cbn; auto. intros; apply H; cbn; auto. Qed.
Lemma lsum_map (A B : Type) (f : B -> Qc) (g : A -> B) l : lsum f (map g l) = lsum (fun a => f (g a)) l.
Proof. induction l; cbn; congruence. Qed.
Lemma lsum_flat (A B : Type) (f : B -> Qc) (g : A -> list B) l : lsum f (flat_map g l) = lsum (fun a => lsum f (g a)) l.
Proof. induction l as [|a l IH]; cbn; auto. rewrite lsum_app. congruence. Qed.
Lemma lsum_add (A : Type) (f g : A -> Qc) l : lsum (fun a => f a + g a) l = lsum f l + lsum g l.
Proof. induction l as [|a l IH]; cbn; [ring|]. rewrite IH. ring. Qed.
Lemma lsum_scale (A : Type) k (f : A -> Qc) l : lsum (fun a => k * f a) l = k * lsum f l.
Proof. induction l as [|a l IH]; cbn; [ring|]. rewrite IH. ring. Qed.
Lemma lsum_0 (A : Type) (f : A -> Qc) l : (forall a, In a l -> f a = 0) -> lsum f l = 0.
Proof. induction l as [|a l IH]; intros H; cbn; auto. rewrite IH, (H a); cbn; auto. intros; apply H; cbn; auto. Qed.
Lemma lsum_perm (A : Type) (f : A -> Qc) l l' : Permutation l l' -> lsum f l = lsum f l'.
Proof. induction 1; cbn; try congruence. ring. Qed.
Lemma lsum_nonneg (A : Type) (f : A -> Qc) l : (forall a, In a l -> 0 <= f a) -> 0 <= lsum f l.
Proof.
  induction l as [|a l IH]; intros H; cbn; [apply Qcle_refl|]. assert (A0 := H a (or_introl eq_refl)). assert (B := IH (fun x Hx => H x (or_intror Hx))). qc_lra.
Qed.
Lemma lsum_swap (A B : Type) (f : A -> B -> Qc) l l' : lsum (fun a => lsum (f a) l') l = lsum (fun b => lsum (fun a => f a b) l) l'.
Proof. induction l as [|a l IH]; cbn; [symmetry; apply lsum_0; auto|]. rewrite IH, <- lsum_add. auto. Qed.
(** only one element contributes *)
Lemma lsum_single (A : Type) (f : A -> Qc) l x : NoDup l -> In x l -> (forall a, In a l -> a <> x -> f a = 0) -> lsum f l = f x.
Proof.
  induction l as [|a l IH]; intros ND I H; [destruct I|]. inversion ND as [|? ? NI ND']; subst. cbn. destruct I as [->|I].
  - rewrite lsum_0; [ring|]. intros b Hb. apply H; cbn; auto. intros ->. contradiction.
  - rewrite (H a), IH; cbn; auto; [ring|intros; apply H; cbn; auto|intros ->; contradiction].
Qed.
Lemma coeff_app a b r c : coeff (a ++ b) r c = coeff a r c + coeff b r c. Proof. apply lsum_app. Qed.
Lemma mulv_app a b x r : mulv (a ++ b) x r = mulv a x r + mulv b x r. Proof. apply lsum_app. Qed.
Lemma coeff_flat (A : Type) (g : A -> list triplet) l r c : coeff (flat_map g l) r c = lsum (fun a => coeff (g a) r c) l. Proof. apply lsum_flat. Qed.
Lemma mulv_flat (A : Type) (g : A -> list triplet) l x r : mulv (flat_map g l) x r = lsum (fun a => mulv (g a) x r) l. Proof. apply lsum_flat. Qed.
Lemma coeff_0 ts r c : (forall v, ~ In (r, c, v) ts) -> coeff ts r c = 0.
Proof.
  intros H. apply lsum_0. intros [[r' c'] v] I. cbn. destruct (Z.eqb_spec r' r), (Z.eqb_spec c' c); auto. subst. edestruct H; eauto.
Qed.
(** distinct positions: a stored value is the coefficient *)
Lemma coeff_in ts r c v : NoDup (map fst ts) -> In (r, c, v) ts -> coeff ts r c = v.
Proof.
  intros ND I. unfold coeff. rewrite (@lsum_single _ _ ts (r, c, v)); auto.
  - cbn. rewrite !Z.eqb_refl. auto.
  - eapply NoDup_map_inv. exact ND.
  - intros [[r' c'] v'] I' N. cbn. destruct (Z.eqb_spec r' r), (Z.eqb_spec c' c); auto. subst. destruct N.
    clear - ND I I'. induction ts as [|t ts IH]; [destruct I|]. cbn in ND. inversion ND as [|? ? NI ND']; subst.
    destruct I as [E1|I], I' as [E2|I']; auto.
    + congruence.
    + destruct NI. apply in_map_iff. exists (r, c, v'). subst t. auto.
    + destruct NI. apply in_map_iff. exists (r, c, v). subst t. auto.
Qed.
Lemma zseq_in n i : In i (zseq n) <-> (0 <= i < n)%Z.
Proof. unfold zseq. rewrite in_map_iff. split; [intros (k & <- & H); apply in_seq in H; lia|intros H; exists (Z.to_nat i); split; [lia|apply in_seq; lia]]. Qed.
Lemma zseq_nodup n : NoDup (zseq n).
Proof. apply FinFun.Injective_map_NoDup; [intros a b; lia|apply seq_NoDup]. Qed.
(** M^T diag(h) M: x^T (M^T diag(h) M) z = sum over rows of h r (M x) r (M z) r; bilinear form on rows 0..n-1 *)
Definition form (n : Z) (ts : list triplet) (h : Z -> Qc) (x z : Z -> Qc) : Qc := lsum (fun r => h r * mulv ts x r * mulv ts z r) (zseq n).
(** (M^T diag(h) M x) at c, as Eigen computes it *)
Definition lap (ts : list triplet) (h : Z -> Qc) (x : Z -> Qc) (c : Z) : Qc := mulTv ts (fun r => h r * mulv ts x r) c.
Lemma mulv_coeff n ts x r : Forall (fun t => 0 <= t_col t < n)%Z ts -> mulv ts x r = lsum (fun c => coeff ts r c * x c) (zseq n).
Proof.
  induction 1 as [|t ts Ht H IH].
  - cbn. symmetry. apply lsum_0. intros. unfold coeff. cbn. ring.
  - unfold mulv, coeff in *. cbn [lsum]. rewrite IH. rewrite (@lsum_ext _ (fun c => ((if ((t_row t =? r)%Z && (t_col t =? c)%Z)%bool then t_val t else 0) + _) * x c) (fun c => (if ((t_row t =? r)%Z && (t_col t =? c)%Z)%bool then t_val t * x c else 0) + lsum (fun t => if ((t_row t =? r)%Z && (t_col t =? c)%Z)%bool then t_val t else 0) ts * x c) (zseq n)).
    + rewrite lsum_add. f_equal. rewrite (@lsum_single _ _ (zseq n) (t_col t)); [|apply zseq_nodup|apply zseq_in; auto|].
      * rewrite Z.eqb_refl, Bool.andb_true_r. auto.
      * intros a _ N. destruct (Z.eqb_spec (t_col t) a); [congruence|]. rewrite Bool.andb_false_r. auto.
    + intros c _. destruct ((t_row t =? r)%Z && (t_col t =? c)%Z)%bool; ring.
Qed.
Lemma lap_form n m ts h x z : Forall (fun t => 0 <= t_row t < n)%Z ts -> Forall (fun t => 0 <= t_col t < m)%Z ts ->
  lsum (fun c => z c * lap ts h x c) (zseq m) = form n ts h x z.
Proof.
  intros R C. unfold lap, form. set (y := fun r => h r * mulv ts x r).
  assert (A : lsum (fun c => z c * mulTv ts y c) (zseq m) = lsum (fun t => t_val t * y (t_row t) * z (t_col t)) ts).
  { unfold mulTv. rewrite (@lsum_ext _ _ (fun c => lsum (fun t => if (t_col t =? c)%Z then t_val t * y (t_row t) * z c else 0) ts)).
    - rewrite lsum_swap. apply lsum_ext. intros t It. rewrite Forall_forall in C. rewrite (@lsum_single _ _ (zseq m) (t_col t)); [rewrite Z.eqb_refl; auto|apply zseq_nodup|apply zseq_in; auto|].
      intros a _ N. destruct (Z.eqb_spec (t_col t) a); congruence.
    - intros c _. rewrite <- lsum_scale. apply lsum_ext. intros t _. destruct (t_col t =? c)%Z; ring. }
  rewrite A. rewrite (@lsum_ext _ (fun r => h r * mulv ts x r * mulv ts z r) (fun r => lsum (fun t => if (t_row t =? r)%Z then t_val t * y r * z (t_col t) else 0) ts) (zseq n)).
  - rewrite lsum_swap. apply lsum_ext. intros t It. rewrite Forall_forall in R. rewrite (@lsum_single _ _ (zseq n) (t_row t)); [rewrite Z.eqb_refl; auto|apply zseq_nodup|apply zseq_in; auto|].
    intros a _ N. destruct (Z.eqb_spec (t_row t) a); congruence.
  - intros r _. unfold y. unfold mulv at 2. rewrite <- lsum_scale. apply lsum_ext. intros t _. destruct (t_row t =? r)%Z; ring.
Qed.
Lemma form_sym n ts h x z : form n ts h x z = form n ts h z x.
Proof. apply lsum_ext. intros. ring. Qed.
Lemma form_psd n ts h x : (forall r, (0 <= r < n)%Z -> 0 <= h r) -> 0 <= form n ts h x x.
Proof.
  intros H. apply lsum_nonneg. intros r Hr. apply zseq_in in Hr. assert (A := H r Hr). generalize (mulv ts x r) as m. generalize dependent (h r). intros a A m.
  assert (E : a * m * m = a * (m * m)) by ring. rewrite E. assert (S : 0 <= m * m).
  { destruct (Qclt_le_dec m 0) as [L|L]; [assert (E' : m * m = (- m) * (- m)) by ring; rewrite E'; assert (0 <= - m) by qc_lra|];
    match goal with |- 0 <= ?p * ?q => replace 0 with (0 * q) by ring; apply Qcmult_le_compat_r; auto end. }
  replace 0 with (0 * (m * m)) by ring. apply Qcmult_le_compat_r; auto.
Qed.
