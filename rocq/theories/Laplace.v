(** examples/laplacian/setup.cpp (the pressure example) and examples/laplacian/solver.hpp (its preconditioned conjugate gradients),
    and fix_axis_aligned_indefiniteness of src/diffgeo_utils.cpp:82-94 (the same text as setup.cpp:34-46).
    Exact rationals; None = an assertion of Eigen on sizes or indices, or a division by zero (a NaN or infinity in the code). *)
From Verif Require Import Base Num CoordMask Vertex Grid SmallestEdge AdaptiveGrid Mesh Sparse Mesh2 Boundary3 Volume Interp Queries3 Hodge3.
Set Implicit Arguments.
Local Open Scope Z_scope.

(** diagonal * matrix *)
Definition diag_mat (h : list Qc) (A : matrix) : option matrix :=
  if mat_rows A =? Z.of_nat (length h) then Some (mkMat (mat_rows A) (mat_cols A) (map (fun '(r, c, v) => (r, c, (nth (Z.to_nat r) h 0 * v)%Qc)) (mat_entries A))) else None.
(** setup.cpp:204-215: the boundary operator without the rows of the input's faces *)
Definition open_boundary (m : mesh3) : option matrix :=
  match boundary_matrix m with
  | None => None
  | Some B => match diag_mat (map Z2Qc (mesh_face_mask m)) B with
              | None => None
              | Some B1 => mat_diag B1 (repeat 1%Qc (Z.to_nat (cell_size m)))
              end
  end.
(** setup.cpp:203-221; [h2] = the values of dual_hodge2 *)
Definition example_laplacian (m : mesh3) (h2 : list Qc) : option matrix :=
  match open_boundary m with
  | None => None
  | Some B => match mat_diag (transpose B) h2 with Some BT => mat_mul BT B | None => None end
  end.

(** ** the right-hand side *)
(** Eigen maxCoeff(&i): the first largest entry *)
Definition max_coeff3 (d : q3) : nat :=
  let '(x, y, z) := d in if qltb x y then (if qltb y z then 2 else 1)%nat else (if qltb x z then 2 else 0)%nat.
Definition put_q (l : list Qc) (i : Z) (v : Qc) : option (list Qc) :=
  if (0 <=? i) && (i <? Z.of_nat (length l)) then Some (zput l (Z.to_nat i) v) else None.
(** setup.cpp:151-164; what R was before (:141-142) is overwritten, and :166-190 is not reached.  flux(), whose value is dropped, reads the largest region of a mesh that has a cell. *)
Definition example_divergence (m : mesh3) (direction : q3) : option (list Qc) :=
  let d := max_coeff3 direction in
  fold_left (fun acc '(i, b) => match acc with
    | None => None
    | Some R => let x := get3 (fst b : c3) d in
                if x =? 0 then put_q R i 1%Qc else if x =? get3 (cshape m) d - 1 then put_q R i (- (1))%Qc else Some R
    end) (m_cubes m) (Some (repeat 0%Qc (Z.to_nat (cell_size m)))).

(** ** solver.hpp: vectors are functions on the indices [ix] *)
Definition vec := Z -> Qc.
Definition vdotp (ix : list Z) (x y : vec) : Qc := lsum (fun i => x i * y i)%Qc ix.
Definition axpy (a : Qc) (x y : vec) : vec := fun i => (y i + a * x i)%Qc.
(** lpNorm<Infinity> *)
Definition norm_inf (ix : list Z) (x : vec) : Qc := fold_left (fun a i => let b := qabs (x i) in if qltb a b then b else a) ix 0%Qc.
Record pcg_state := mkPcg { s_x : vec; s_r : vec; s_z : vec; s_p : vec; s_Ap : vec; s_rdz : Qc }.
(** solver.hpp:214-223, one pass *)
Definition pcg_step (ix : list Z) (A P : vec -> vec) (s : pcg_state) : option pcg_state :=
  let pAp := vdotp ix (s_p s) (s_Ap s) in
  if qeqb pAp 0%Qc then None else
  let alpha := (s_rdz s / pAp)%Qc in
  let x := axpy alpha (s_p s) (s_x s) in
  let r := axpy (- alpha)%Qc (s_Ap s) (s_r s) in
  let z := P r in
  if qeqb (s_rdz s) 0%Qc then None else
  let rdz := vdotp ix r z in
  let beta := (1 / s_rdz s * rdz)%Qc in
  let p := axpy beta (s_p s) z in
  Some (mkPcg x r z p (A p) rdz).
(** :209-212: at most [fuel] passes *)
Fixpoint pcg_loop (fuel : nat) (ix : list Z) (A P : vec -> vec) (eps : Qc) (s : pcg_state) : option pcg_state :=
  match fuel with
  | O => Some s
  | S n => if qltb eps (norm_inf ix (s_r s)) then match pcg_step ix A P s with Some s' => pcg_loop n ix A P eps s' | None => None end else Some s
  end.
(** :196-204 *)
Definition pcg_init (ix : list Z) (A P : vec -> vec) (b : vec) : pcg_state :=
  let x : vec := fun _ => 0%Qc in
  let r : vec := fun i => (b i - A x i)%Qc in
  let z := P r in mkPcg x r z z (A z) (vdotp ix r z).
Definition epsilon5 : Qc := Q2Qc (1 # 100000).
(** :194-226; ++iterations < 10 lets nine passes through *)
Definition pcg_solve (ix : list Z) (A P : vec -> vec) (b : vec) : option vec :=
  let s := pcg_init ix A P b in
  option_map s_x (pcg_loop 9 ix A P (norm_inf ix (s_r s) * epsilon5)%Qc s).

(** SparseLDLT::solve, :161-166: forward substitution with the unit lower triangle of L, Dinv, then backward with its transpose; the factorization (:66-160) that makes [l] and [dinv] is in Ldlt.v *)
Definition upd (y : vec) (k : Z) (v : Qc) : vec := fun i => if i =? k then v else y i.
Fixpoint forward (l : Z -> Z -> Qc) (b : vec) (k : nat) : vec :=
  match k with
  | O => fun _ => 0%Qc
  | S k' => let y := forward l b k' in upd y (Z.of_nat k') (b (Z.of_nat k') - lsum (fun j => l (Z.of_nat k') j * y j) (zseq (Z.of_nat k')))%Qc
  end.
(** rows n-1, n-2, ..., n-k *)
Fixpoint backward (n : nat) (l : Z -> Z -> Qc) (b : vec) (k : nat) : vec :=
  match k with
  | O => fun _ => 0%Qc
  | S k' => let y := backward n l b k' in let i := Z.of_nat n - 1 - Z.of_nat k' in
            upd y i (b i - lsum (fun j => l j i * y j) (map (fun t => i + 1 + t)%Z (zseq (Z.of_nat k'))))%Qc
  end.
Definition ldlt_apply (n : nat) (l : Z -> Z -> Qc) (dinv : vec) (b : vec) : vec :=
  backward n l (fun i => dinv i * forward l b n i)%Qc n.

(** setup.cpp:222-259: pressure; [l] and [dinv] are the factors computed by the preconditioner *)
Definition example_pressure (m : mesh3) (h2 : list Qc) (direction : q3) (l : Z -> Z -> Qc) (dinv : vec) : option vec :=
  match example_laplacian m h2, example_divergence m direction with
  | Some L, Some D => pcg_solve (zseq (cell_size m)) (mulv (mat_entries L)) (ldlt_apply (Z.to_nat (cell_size m)) l dinv) (fun i => nth (Z.to_nat i) D 0%Qc)
  | _, _ => None
  end.

(** ** diffgeo_utils.cpp:82-94: pruned() drops the entries that are zero; a column (the matrix is stored by columns) left empty gets a diagonal 1 *)
Definition fix_indefiniteness (A : matrix) (rhs : list Qc) : option (matrix * list Qc) :=
  fold_left (fun acc j => match acc with
    | None => None
    | Some (M, b) =>
      if forallb (fun i => qeqb (coeff (mat_entries A) i j) 0%Qc) (zseq (mat_rows A)) then
        if j <? mat_rows A then option_map (fun b' => (mkMat (mat_rows M) (mat_cols M) (mat_entries M ++ [(j, j, 1%Qc)]), b')) (put_q b j 0%Qc) else None
      else Some (M, b)
    end) (zseq (mat_cols A)) (Some (mkMat (mat_rows A) (mat_cols A) (filter (fun '(r, c, _) => negb (qeqb (coeff (mat_entries A) r c) 0%Qc)) (mat_entries A)), rhs)).
