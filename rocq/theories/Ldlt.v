(** examples/laplacian/solver.hpp:8-170: the factorizations DenseLDLT and SparseLDLT.
    Exact rationals; None = a division by zero (an infinity or NaN in the code). *)
From Verif Require Import Base Num CoordMask Vertex Grid SmallestEdge AdaptiveGrid Mesh Sparse Mesh2 Boundary3 Volume Interp Queries3 Hodge3 Laplace.
Set Implicit Arguments.
Local Open Scope Z_scope.

(** a column of the compressed strictly lower triangle: rows (ascending) and values; an InnerIterator is a suffix of it *)
Definition column := list (Z * Qc).
Definition stored (A : matrix) (r c : Z) : bool := existsb (fun '(r', c', _) => (r' =? r) && (c' =? c)) (mat_entries A).
(** :71 triangularView<StrictlyLower>; :72-76 finds no diagonal entry to erase *)
Definition lower_column (A : matrix) (k : Z) : column :=
  map (fun r => (r, coeff (mat_entries A) r k)) (filter (fun r => (k <? r) && stored A r k) (zseq (mat_rows A))).
Record factors := mkFac { f_L : Z -> column; f_dinv : vec }.
Definition set_col (L : Z -> column) (j : Z) (c : column) : Z -> column := fun i => if i =? j then c else L i.

(** :113-124: the inner while for one entry (r, v) of column k above row j *)
Fixpoint advance (jit : column) (r : Z) (v missing : Qc) : column * Qc :=
  match jit with
  | [] => ([], missing)
  | (rj, _) :: t => if rj <? r then advance t r v missing else if rj =? r then (jit, missing) else (jit, (missing + v)%Qc)
  end.
(** :112-126 *)
Fixpoint walk_above (j : Z) (kit jit : column) (missing : Qc) : column * column * Qc :=
  match kit with
  | [] => ([], jit, missing)
  | (r, v) :: t => if r <? j then let '(jit', m) := advance jit r v missing in walk_above j t jit' m else (kit, jit, missing)
  end.
(** :135-151: the merge of the rest of column k into column j; returns column j, the rest of column k and the sum *)
Fixpoint walk_merge (mult : Qc) (kit : column) {struct kit} : column -> Qc -> column * column * Qc :=
  fix go (jcol : column) (missing : Qc) {struct jcol} : column * column * Qc :=
    match kit, jcol with
    | [], _ => (jcol, [], missing)
    | _, [] => ([], kit, missing)
    | (rk, vk) :: tk, (rj, vj) :: tj =>
      if rj <? rk then let '(c, k, m) := go tj missing in ((rj, vj) :: c, k, m)
      else if rj =? rk then let '(c, k, m) := walk_merge mult tk tj missing in ((rj, (vj - mult * vk)%Qc) :: c, k, m)
      else walk_merge mult tk jcol (missing + vk)%Qc
    end.
Definition q97 : Qc := Q2Qc (97 # 100).
Definition quarter : Qc := Q2Qc (1 # 4).
(** :99-158, one entry (j, v) of column k.  [stale k j] = what :129 finds when the iterator of column j is exhausted: it reads past the column *)
Definition spread (stale : Z -> Z -> bool) (k : Z) (kcol : column) (F : factors) (e : Z * Qc) : factors :=
  let '(j, v) := e in
  if j <=? k then F else
  let '(kit, jit, m1) := walk_above j kcol (f_L F j) 0%Qc in
  let hit := match kit, jit with [], _ => false | _, (rj, _) :: _ => rj =? j | _, [] => stale k j end in
  let d1 := if hit then (f_dinv F j - v * v)%Qc else f_dinv F j in
  let '(jcol, rest, m2) := walk_merge v kit (f_L F j) m1 in
  let m3 := fold_left (fun m '(_, x) => m + x)%Qc rest m2 in
  mkFac (set_col (f_L F) j jcol) (upd (f_dinv F) j (d1 - q97 * m3 * v)%Qc).
(** :82-159, column k; [D] = the diagonal of the matrix *)
Definition factor_step (stale : Z -> Z -> bool) (D : vec) (F : option factors) (k : Z) : option factors :=
  match F with
  | None => None
  | Some F =>
    if qeqb (D k) 0%Qc then Some F else
    let p := if qltb (f_dinv F k) (quarter * D k)%Qc then D k else f_dinv F k in
    if qeqb p 0%Qc then None else
    let kcol := map (fun '(r, v) => (r, (v * (1 / p))%Qc)) (f_L F k) in
    Some (fold_left (spread stale k kcol) kcol (mkFac (set_col (f_L F) k kcol) (upd (f_dinv F) k (1 / p)%Qc)))
  end.
(** :68-165 *)
Definition diagonal (A : matrix) : vec := fun i => coeff (mat_entries A) i i.
Definition factor (stale : Z -> Z -> bool) (A : matrix) : option factors :=
  fold_left (factor_step stale (diagonal A)) (zseq (mat_rows A)) (Some (mkFac (lower_column A) (diagonal A))).
(** the entries of L *)
Definition at_row (c : column) (i : Z) : Qc := match find (fun '(r, _) => r =? i) c with Some (_, v) => v | None => 0%Qc end.
Definition f_l (F : factors) (i j : Z) : Qc := at_row (f_L F j) i.
(** :166-170 *)
Definition precondition (F : factors) (n : Z) (b : vec) : vec := ldlt_apply (Z.to_nat n) (f_l F) (f_dinv F) b.
(** :236-250 and :185-192: ldlt_pcg_solve *)
Definition ldlt_pcg_solve (stale : Z -> Z -> bool) (A : matrix) (b : vec) : option vec :=
  match factor stale A with
  | Some F => pcg_solve (zseq (mat_rows A)) (mulv (mat_entries A)) (precondition F (mat_rows A)) b
  | None => None
  end.

(** ** DenseLDLT, :8-57: LD holds the unit lower triangle below its diagonal and D on it *)
Definition dense := Z -> Z -> Qc.
Definition put2 (M : dense) (i j : Z) (v : Qc) : dense := fun a b => if (a =? i) && (b =? j) then v else M a b.
(** :16-19 *)
Definition triple (M : dense) (i j : Z) : Qc := lsum (fun t => M i t * M j t * M t t)%Qc (zseq j).
Definition tiny : Qc := Q2Qc (1 # 10000).
(** :26-35 *)
Definition dense_entry (i : Z) (M : dense) (j : Z) : dense :=
  if qltb tiny (qabs (M j j)) then put2 M i j ((M i j - triple M i j) / M j j)%Qc else put2 M i j 0%Qc.
(** :24-37 *)
Definition dense_row (M : dense) (i : Z) : dense :=
  let M1 := fold_left (dense_entry i) (zseq i) M in put2 M1 i i (M1 i i - triple M1 i i)%Qc.
Definition dense_ldlt (n : nat) (A : dense) : dense :=
  fold_left dense_row (zseq (Z.of_nat n)) (fun i j => if j <=? i then A i j else 0%Qc).
(** :41-46; None = a zero on the diagonal *)
Definition dense_solve (n : nat) (LD : dense) (b : vec) : option vec :=
  if forallb (fun i => negb (qeqb (LD i i) 0%Qc)) (zseq (Z.of_nat n)) then Some (ldlt_apply n LD (fun i => (1 / LD i i)%Qc) b) else None.
(** :47-54 *)
Definition unit_lower (LD : dense) (i j : Z) : Qc := if j <? i then LD i j else if i =? j then 1%Qc else 0%Qc.
Definition get_A (n : nat) (LD : dense) : dense :=
  fun i j => lsum (fun t => unit_lower LD i t * (LD t t * unit_lower LD j t))%Qc (zseq (Z.of_nat n)).
