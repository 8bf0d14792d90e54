From Verif Require Import Base Num Grid SmallestEdge SmallestEdgeProofs AdaptiveGrid AdaptiveFactory AdaptiveSpec AdaptiveProofs AdaptiveFaces AdaptiveFactoryProofs FinPerm.
From Coq Require Import Permutation.
Local Open Scope Z_scope.

Lemma flat_map_len (A B : Type) (f : A -> list B) n l : (forall a, In a l -> length (f a) = n) -> length (flat_map f l) = (length l * n)%nat.
Proof. induction l as [|a l IH]; cbn; intros H; auto. rewrite app_length, IH, H; auto. Qed.
Lemma loop3_length c s : length (loop3 c s) = (Z.to_nat (get3 s 0) * (Z.to_nat (get3 s 1) * Z.to_nat (get3 s 2)))%nat.
Proof.
  destruct c as [[x y] z], s as [[u v] w]. unfold loop3; cbn [get3]. rewrite (flat_map_len _ _ _ (Z.to_nat v * Z.to_nat w)).
  - rewrite zrange_length; auto.
  - intros a _. rewrite (flat_map_len _ _ _ (Z.to_nat w)), zrange_length; auto. intros b _. rewrite map_length, zrange_length; auto.
Qed.
Lemma box_len b : 0 <= snd b -> Z.of_nat (length (box_coords b)) = snd b * snd b * snd b.
Proof. intros H. unfold box_coords. rewrite loop3_length. cbn [get3]. rewrite !Nat2Z.inj_mul, Z2Nat.id by auto. ring. Qed.

(** all boxes concatenated *)
Lemma boxes_perm shape cells (P : c3 -> bool) : wf_cells shape cells -> tiles shape (fun p => P p = true) cells ->
  Permutation (flat_map (fun ib => box_coords (snd ib)) cells) (filter P (loop3 (0, 0, 0) shape)).
Proof.
  intros [W1 W2] [T1 T2]. assert (ND : NoDup cells).
  { apply (ssorted_NoDup Zcompare_total) in W1. eapply NoDup_map_inv; eauto. }
  apply NoDup_Permutation.
  - apply NoDup_flat_map; auto; [intros; apply loop3_NoDup|]. intros [i a] [j b] p Ha Hb H1 H2. apply box_In in H1, H2. cbn [snd] in *.
    destruct (T1 i a p Ha H1) as [G HP]. destruct (T2 p G HP) as (x & _ & U). rewrite <- (U (i, a)), <- (U (j, b)); auto.
  - apply NoDup_filter, loop3_NoDup.
  - intros p. rewrite in_flat_map, filter_In, loop3_In. split.
    + intros ([i b] & Hi & H). apply box_In in H. destruct (T1 i b p Hi H) as [G HP]. split; auto. unfold in_grid in G. rewrite all3 in G. exact G.
    + intros [G HP]. destruct (T2 p) as ([i b] & [H1 H2] & _); auto. { unfold in_grid. rewrite all3. exact G. } exists (i, b). split; auto. apply box_In; auto.
Qed.
