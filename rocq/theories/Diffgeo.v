(** src/diffgeo_utils.cpp:7-45 (grid_boundary) and 46-80 (grid_edgeratio): the staggered 2D grid difference operator and the edge fractions. *)
From Verif Require Import Base Num Sparse.
Set Implicit Arguments.
Local Open Scope Z_scope.

(** lines 12-18 and 55-60 *)
Definition u_ind (ni nj i j : Z) : Z := i + j * (ni + 1).
Definition v_ind (ni nj i j : Z) : Z := i + j * ni + (ni + 1) * nj.
Definition p_ind (ni nj i j : Z) : Z := i + j * (ni + 1).
(** lines 25-41, one cell; note the last test compares j with ni - 1 *)
Definition cell_triplets (ni nj : Z) (dirichlet : bool) (i j : Z) : list triplet :=
  let index := i + ni * j in
  (if dirichlet && (i =? 0) then [] else [(u_ind ni nj i j, index, 1%Qc)]) ++
  (if dirichlet && (i =? ni - 1) then [] else [(u_ind ni nj (i + 1) j, index, (- (1))%Qc)]) ++
  (if dirichlet && (j =? 0) then [] else [(v_ind ni nj i j, index, 1%Qc)]) ++
  (if dirichlet && (j =? ni - 1) then [] else [(v_ind ni nj i (j + 1), index, (- (1))%Qc)]).
(** lines 23-44 *)
Definition grid_boundary (ni nj : Z) (dirichlet : bool) : list triplet :=
  flat_map (fun j => flat_map (fun i => cell_triplets ni nj dirichlet i j) (zseq ni)) (zseq nj).

(** lines 66-78; levelset::fraction_inside is external: an arbitrary function.  The writes M(k) = v in order. *)
Definition edgeratio_writes (fraction_inside : Qc -> Qc -> Qc) (ni nj : Z) (phi : Z -> Qc) : list (Z * Qc) :=
  let p i j := phi (p_ind ni nj i j) in
  flat_map (fun j => map (fun i => (u_ind ni nj i j, fraction_inside (p i j) (p i (j + 1)))) (zseq (ni + 1))) (zseq nj) ++
  flat_map (fun j => map (fun i => (v_ind ni nj i j, fraction_inside (p i j) (p (i + 1) j))) (zseq ni)) (zseq (nj + 1)).
(** the vector after the writes: the last write to an index wins; None = never written (uninitialised) *)
Definition written (ws : list (Z * Qc)) (k : Z) : option Qc := fold_left (fun acc '(i, v) => if i =? k then Some v else acc) ws None.
