From Coq Require Import Permutation.
From Verif Require Import Base Num SmallestEdge AdaptiveGrid FaceCollapser Mesh Volume.
Set Implicit Arguments.
Local Open Scope Qc_scope.
Local Arguments Qcplus : simpl never. Local Arguments Qcmult : simpl never. Local Arguments Qcopp : simpl never. Local Arguments Qcminus : simpl never.
Local Arguments Qcdiv : simpl never. Local Arguments Qcinv : simpl never. Local Arguments Q2Qc : simpl never.

Ltac vec := repeat match goal with p : q3 |- _ => destruct p as [[? ?] ?] end; unfold vadd, vneg, vscale, vzero, dot, cross in *.
Lemma q6_neq : q6 <> 0. Proof. discriminate. Qed.
Section Qsum.
  Variables (A : Type) (f : A -> Qc).
  Fixpoint qsum (l : list A) : Qc := match l with [] => 0 | a :: t => f a + qsum t end.
End Qsum.
Lemma qsum_app (A : Type) (f : A -> Qc) l l' : qsum f (l ++ l') = qsum f l + qsum f l'.
Proof. induction l as [|a l IH]; cbn; [ring|]. rewrite IH. ring. Qed.
Lemma qsum_perm (A : Type) (f : A -> Qc) l l' : Permutation l l' -> qsum f l = qsum f l'.
Proof. induction 1; cbn; try congruence. ring. Qed.
Lemma qsum_ext (A : Type) (f g : A -> Qc) l : (forall a, In a l -> f a = g a) -> qsum f l = qsum g l.
Proof. induction l as [|a l IH]; intros H; cbn; auto. rewrite IH, (H a); cbn; auto. intros; apply H; cbn; auto. Qed.
Lemma qsum_map (A B : Type) (f : B -> Qc) (g : A -> B) l : qsum f (map g l) = qsum (fun a => f (g a)) l.
Proof. induction l; cbn; congruence. Qed.
Lemma qsum_flat (A B : Type) (f : B -> Qc) (g : A -> list B) l : qsum f (flat_map g l) = qsum (fun a => qsum f (g a)) l.
Proof. induction l as [|a l IH]; cbn; auto. rewrite qsum_app. congruence. Qed.
Lemma qsum_add (A : Type) (f g : A -> Qc) l : qsum (fun a => f a + g a) l = qsum f l + qsum g l.
Proof. induction l as [|a l IH]; cbn; [ring|]. rewrite IH. ring. Qed.
Lemma qsum_scale (A : Type) k (f : A -> Qc) l : qsum (fun a => k * f a) l = k * qsum f l.
Proof. induction l as [|a l IH]; cbn; [ring|]. rewrite IH. ring. Qed.
Lemma qsum_opp (A : Type) (f : A -> Qc) l : qsum (fun a => - f a) l = - qsum f l.
Proof. induction l as [|a l IH]; cbn; [ring|]. rewrite IH. ring. Qed.

(** ** cell volume as a sum *)
Definition signed (vols : Z -> Qc) (x : Z * bool) : Qc := if snd x then vols (fst x) else - vols (fst x).
Lemma cell_volume_sum vols c : cell_volume vols c = qsum (signed vols) c.
Proof.
  unfold cell_volume. assert (G : forall c a, fold_left (fun v '(f, b) => v + (if b : bool then 1 else - (1)) * vols f) c a = a + qsum (signed vols) c).
  { induction c0 as [|[f b] c0 IH]; intros a; cbn; [ring|]. rewrite IH. unfold signed at 2. cbn. destruct b; ring. }
  rewrite G. ring.
Qed.
(** ** face volume as a sum *)
Definition loop_vol (V : Z -> q3) (l : list Z) : Qc := match l with i0 :: i1 :: rest => fan (V i0) (V i1) (map V rest) | _ => 0 end.
Lemma brep_sum V loops : Forall (fun l => (2 <= length l)%nat) loops -> brep_volume V loops = Some (qsum (loop_vol V) loops).
Proof.
  unfold brep_volume. assert (G : forall loops a, Forall (fun l => (2 <= length l)%nat) loops -> fold_left (fun acc l => oadd acc (loop_volume V l)) loops (Some a) = Some (a + qsum (loop_vol V) loops)).
  { induction loops0 as [|l loops0 IH]; intros a H; cbn [fold_left qsum]; [f_equal; ring|]. inversion H as [|? ? HL HR]; subst.
    destruct l as [|i0 [|i1 r]]; cbn in HL; try lia. cbn [loop_volume oadd]. rewrite IH by auto. cbn [loop_vol]. f_equal. ring. }
  intros H. rewrite G by auto. f_equal. ring.
Qed.
Lemma brep_none V loops l : In l loops -> (length l < 2)%nat -> brep_volume V loops = None.
Proof.
  unfold brep_volume. assert (N : forall ls, fold_left (fun acc l => oadd acc (loop_volume V l)) ls None = None) by (induction ls; auto).
  generalize (Some 0). induction loops as [|x ls IH]; intros a []; [subst|]; intros L; cbn [fold_left]; auto.
  destruct l as [|? [|]]; cbn in L; try lia; cbn; destruct a; cbn; auto.
Qed.

(** ** directed edges of a loop of points *)
Definition pcyc (A : Type) (l : list A) : list (A * A) := match l with [] => [] | a :: t => combine l (t ++ [a]) end.
Lemma pcyc_map (A B : Type) (f : A -> B) (l : list A) : pcyc (map f l) = map (fun '(a, b) => (f a, f b)) (pcyc l).
Proof.
  destruct l as [|a t]; auto. cbn [pcyc map]. assert (G : forall (l l' : list A), combine (map f l) (map f l') = map (fun '(a, b) => (f a, f b)) (combine l l')).
  { induction l as [|x l IH]; intros [|y l']; cbn; auto. rewrite IH; auto. }
  rewrite <- G. cbn [map]. rewrite map_app. auto.
Qed.
Definition esum (g : q3 -> q3 -> Qc) (l : list q3) : Qc := qsum (fun '(a, b) => g a b) (pcyc l).
Lemma esum_fan g p0 rest : forall p1, (forall a b, g a b = - g b a) ->
  esum g (p0 :: p1 :: rest) = fold_right (fun '(a, b) s => (g p0 a + g a b + g b p0) + s) 0 (combine (p1 :: rest) rest).
Proof.
  intros p1 AS. unfold esum, pcyc. cbn [app combine qsum]. revert p1. induction rest as [|p2 rest IH]; intros p1.
  - cbn. rewrite (AS p1 p0). ring.
  - cbn [app combine fold_right] in *. specialize (IH p2).
    cbn [combine fold_right qsum] in *. rewrite <- IH. rewrite (AS p0 p2). ring.
Qed.
Definition area_term (t a b : q3) : Qc := dot t (cross a b).
Lemma area_anti t a b : area_term t a b = - area_term t b a.
Proof. unfold area_term. vec. ring. Qed.
Lemma area_self t a : area_term t a a = 0.
Proof. unfold area_term. vec. ring. Qed.
(** moving a loop by t adds t . (sum of cross products of its edges) / 6 *)
Lemma fan_translate t p0 rest : forall p1, fan (vadd p0 t) (vadd p1 t) (map (fun p => vadd p t) rest) = fan p0 p1 rest + esum (area_term t) (p0 :: p1 :: rest) / q6.
Proof.
  intros p1. rewrite (esum_fan _ _ _ _ (area_anti t)). revert p1. induction rest as [|p2 rest IH]; intros p1; [cbn; field; exact q6_neq|].
  change (combine (p1 :: p2 :: rest) (p2 :: rest)) with ((p1, p2) :: combine (p2 :: rest) rest). cbn [fan map fold_right]. rewrite IH. unfold tet0. assert (E : dot (vadd p0 t) (cross (vadd p1 t) (vadd p2 t)) = dot p0 (cross p1 p2) + (area_term t p0 p1 + area_term t p1 p2 + area_term t p2 p0)).
  { unfold area_term. vec. ring. }
  rewrite E. field. exact q6_neq.
Qed.
Lemma loop_translate V t l : loop_vol (fun i => vadd (V i) t) l = loop_vol V l + qsum (fun '(a, b) => area_term t (V a) (V b)) (pcyc l) / q6.
Proof.
  destruct l as [|i0 [|i1 r]].
  - cbn. field. exact q6_neq.
  - cbn. rewrite area_self. field. exact q6_neq.
  - cbn [loop_vol]. assert (E : map (fun i => vadd (V i) t) r = map (fun p => vadd p t) (map V r)) by (rewrite map_map; auto). rewrite E, fan_translate.
    f_equal. f_equal. unfold esum. change (V i0 :: V i1 :: map V r) with (map V (i0 :: i1 :: r)). rewrite pcyc_map, qsum_map. apply qsum_ext. intros [a b] _. auto.
Qed.
Lemma anti_sum (g : Z -> Z -> Qc) (E : list edge) : (forall a b, g a b = - g b a) -> Permutation E (map swap_edge E) -> qsum (fun '(a, b) => g a b) E = 0.
Proof.
  intros AS P. assert (H := qsum_perm (fun '(a, b) => g a b) P). rewrite qsum_map in H.
  assert (N : qsum (fun e => (let '(a, b) := swap_edge e in g a b)) E = - qsum (fun '(a, b) => g a b) E).
  { rewrite <- qsum_opp. apply qsum_ext. intros [a b] _. cbn. apply AS. }
  rewrite N in H. qc_lra.
Qed.
(** the boundary edges of a face side *)
Definition side_edges (loops : Z -> list (list Z)) (x : Z * bool) : list edge :=
  let es := flat_map (@pcyc Z) (loops (fst x)) in if snd x then es else map swap_edge es.
Definition face_vol (V : Z -> q3) (loops : list (list Z)) : Qc := qsum (loop_vol V) loops.
Lemma face_translate V t loops : face_vol (fun i => vadd (V i) t) loops = face_vol V loops + qsum (fun '(a, b) => area_term t (V a) (V b)) (flat_map (@pcyc Z) loops) / q6.
Proof.
  unfold face_vol. rewrite qsum_flat. induction loops as [|l ls IH]; cbn [qsum]; [field; exact q6_neq|]. rewrite IH, loop_translate. field. exact q6_neq.
Qed.
Lemma cell_translate V t loops c : Permutation (flat_map (side_edges loops) c) (map swap_edge (flat_map (side_edges loops) c)) ->
  qsum (signed (fun f => face_vol (fun i => vadd (V i) t) (loops f))) c = qsum (signed (fun f => face_vol V (loops f))) c.
Proof.
  intros P. assert (Z0 := anti_sum (fun a b => area_term t (V a) (V b)) (fun a b => area_anti t (V a) (V b)) P).
  assert (G : qsum (signed (fun f => face_vol (fun i => vadd (V i) t) (loops f))) c = qsum (signed (fun f => face_vol V (loops f))) c + qsum (fun '(a, b) => area_term t (V a) (V b)) (flat_map (side_edges loops) c) / q6).
  { rewrite qsum_flat. clear. induction c as [|[f b] c IH]; cbn [qsum]; [field; exact q6_neq|].
    rewrite IH. clear IH.
    assert (K : signed (fun f => face_vol (fun i => vadd (V i) t) (loops f)) (f, b) = signed (fun f => face_vol V (loops f)) (f, b) + qsum (fun '(a, b) => area_term t (V a) (V b)) (side_edges loops (f, b)) / q6).
    { unfold signed, side_edges. cbn [fst snd]. rewrite face_translate. destruct b; [field; exact q6_neq|].
      rewrite qsum_map. assert (N : qsum (fun e => (let '(a, b) := swap_edge e in area_term t (V a) (V b))) (flat_map (@pcyc Z) (loops f)) = - qsum (fun '(a, b) => area_term t (V a) (V b)) (flat_map (@pcyc Z) (loops f))).
      { rewrite <- qsum_opp. apply qsum_ext. intros [a b] _. cbn. apply area_anti. }
      rewrite N. field. exact q6_neq. }
    rewrite K. unfold edge in *. field. exact q6_neq. }
  rewrite G, Z0. field. exact q6_neq.
Qed.

(** ** planar loops *)
Lemma det_planar n p q r c : dot n p = c -> dot n q = c -> dot n r = c ->
  dot n n * dot p (cross q r) = c * (area_term n p q + area_term n q r + area_term n r p).
Proof.
  intros Hp Hq Hr.
  assert (I : dot n n * dot p (cross q r) - dot n p * (area_term n p q + area_term n q r + area_term n r p) =
    (dot n q - dot n p) * dot p (cross n (vadd r (vneg p))) - (dot n r - dot n p) * dot p (cross n (vadd q (vneg p)))).
  { unfold area_term. clear. vec. ring. }
  rewrite Hp, Hq, Hr in I. assert (E : c - c = 0) by ring. rewrite E in I.
  assert (J : dot n n * dot p (cross q r) = c * (area_term n p q + area_term n q r + area_term n r p) + (dot n n * dot p (cross q r) - c * (area_term n p q + area_term n q r + area_term n r p))) by ring.
  rewrite J, I. ring.
Qed.
Lemma fan_planar n c p0 rest : forall p1, Forall (fun p => dot n p = c) (p0 :: p1 :: rest) -> dot n n * fan p0 p1 rest = c * esum (area_term n) (p0 :: p1 :: rest) / q6.
Proof.
  intros p1. rewrite (esum_fan _ _ _ _ (area_anti n)). revert p1. induction rest as [|p2 rest IH]; intros p1 H; [cbn; field; exact q6_neq|].
  change (combine (p1 :: p2 :: rest) (p2 :: rest)) with ((p1, p2) :: combine (p2 :: rest) rest). cbn [fan fold_right].
  inversion H as [|? ? H0 H']; subst. inversion H' as [|? ? H1 H'']; subst. inversion H'' as [|? ? H2 H3]; subst.
  rewrite Qcmult_plus_distr_r, IH by (constructor; auto). unfold tet0.
  assert (D := det_planar n p0 p1 p2 eq_refl H1 H2). unfold Qcdiv. rewrite Qcmult_assoc, D. field. exact q6_neq.
Qed.
Definition planar (V : Z -> q3) (l : list Z) : Prop := exists n c, dot n n <> 0 /\ Forall (fun i => dot n (V i) = c) l.
Lemma loop_planar V l n c : (2 <= length l)%nat -> Forall (fun i => dot n (V i) = c) l -> dot n n * loop_vol V l = c * qsum (fun '(a, b) => area_term n (V a) (V b)) (pcyc l) / q6.
Proof.
  destruct l as [|i0 [|i1 r]]; cbn [length]; try lia. intros _ H. cbn [loop_vol].
  rewrite (@fan_planar n c). 2: { change (V i0 :: V i1 :: map V r) with (map V (i0 :: i1 :: r)). apply Forall_map. auto. }
  f_equal. f_equal. unfold esum. change (V i0 :: V i1 :: map V r) with (map V (i0 :: i1 :: r)). rewrite pcyc_map, qsum_map. apply qsum_ext. intros [a b] _. auto.
Qed.
Lemma combine_rot (A : Type) (l : list A) a b : Permutation (combine (a :: l ++ [b]) ((l ++ [b]) ++ [a])) (combine (b :: a :: l) ((a :: l) ++ [b])).
Proof.
  assert (H : forall (l : list A) a z, combine (a :: l ++ [b]) ((l ++ [b]) ++ [z]) = combine (a :: l) (l ++ [b]) ++ [(b, z)]).
  { induction l0 as [|x l0 IH]; intros y z; cbn; auto. f_equal. apply IH. }
  rewrite H. cbn [app]. change (combine (b :: a :: l) (a :: l ++ [b])) with ((b, a) :: combine (a :: l) (l ++ [b])). apply Permutation_sym. apply Permutation_cons_append.
Qed.
Lemma pcyc_rot1 (A : Type) (l : list A) b : Permutation (pcyc (l ++ [b])) (pcyc (b :: l)).
Proof. destruct l as [|a l]; [apply Permutation_refl|]. cbn [app pcyc]. apply combine_rot. Qed.
Lemma pcyc_rot (A : Type) (l k : list A) : Permutation (pcyc (l ++ k)) (pcyc (k ++ l)).
Proof.
  revert l. induction k as [|b k IH]; intros l; [rewrite app_nil_r; apply Permutation_refl|].
  replace (l ++ b :: k) with ((l ++ [b]) ++ k) by (rewrite <- app_assoc; auto). rewrite IH. rewrite app_assoc. apply pcyc_rot1.
Qed.
Lemma pcyc_rev (A : Type) (l : list A) : Permutation (pcyc (rev l)) (map (fun '(a, b) => (b, a)) (pcyc l)).
Proof.
  destruct l as [|a l]; [constructor|]. cbn [rev]. rewrite pcyc_rot1. cbn [pcyc].
  assert (G : forall (l : list A) a c, Permutation (combine (c :: rev l) (rev l ++ [a])) (map (fun '(a, b) => (b, a)) (combine (a :: l) (l ++ [c])))).
  { clear. induction l as [|x l IH]; intros a c; [apply Permutation_refl|]. cbn [rev app]. change (combine (a :: x :: l) (x :: l ++ [c])) with ((a, x) :: combine (x :: l) (l ++ [c])). cbn [map].
    assert (H : forall (m : list A) y, combine (y :: m ++ [x]) ((m ++ [x]) ++ [a]) = combine (y :: m) (m ++ [x]) ++ [(x, a)]).
    { induction m as [|w m IHm]; intros y; cbn; auto. f_equal. apply IHm. }
    rewrite H. etransitivity; [apply Permutation_sym, Permutation_cons_append|]. constructor. apply IH. }
  apply G.
Qed.
Lemma planar_rot V l k : (2 <= length (l ++ k))%nat -> planar V (l ++ k) -> loop_vol V (k ++ l) = loop_vol V (l ++ k).
Proof.
  intros L (n & c & N & H).
  assert (E : dot n n * loop_vol V (k ++ l) = dot n n * loop_vol V (l ++ k)).
  { rewrite (@loop_planar V (l ++ k) n c), (@loop_planar V (k ++ l) n c); auto.
    - rewrite (qsum_perm _ (pcyc_rot k l)). auto.
    - rewrite app_length in *. lia.
    - apply Forall_app in H as [A B]. apply Forall_app; auto. }
  assert (D : dot n n * (loop_vol V (k ++ l) - loop_vol V (l ++ k)) = 0) by (rewrite <- (Qcplus_opp_r (dot n n * loop_vol V (k ++ l))); rewrite E at 2; ring).
  apply Qcmult_integral in D as [D|D]; [contradiction|]. qc_lra.
Qed.
Lemma planar_rev V l : (2 <= length l)%nat -> planar V l -> loop_vol V (rev l) = - loop_vol V l.
Proof.
  intros L (n & c & N & H).
  assert (E : dot n n * loop_vol V (rev l) = - (dot n n * loop_vol V l)).
  { rewrite (@loop_planar V l n c), (@loop_planar V (rev l) n c); auto; [|rewrite rev_length; auto|apply Forall_rev; auto].
    rewrite (qsum_perm _ (pcyc_rev l)), qsum_map.
    assert (X : qsum (fun e => (let '(a, b) := let '(a, b) := e in (b, a) in area_term n (V a) (V b))) (pcyc l) = - qsum (fun '(a, b) => area_term n (V a) (V b)) (pcyc l)).
    { rewrite <- qsum_opp. apply qsum_ext. intros [a b] _. cbn. apply area_anti. }
    rewrite X. field. exact q6_neq. }
  assert (D : dot n n * (loop_vol V (rev l) + loop_vol V l) = 0) by (rewrite Qcmult_plus_distr_r, E; ring).
  apply Qcmult_integral in D as [D|D]; [contradiction|]. qc_lra.
Qed.
