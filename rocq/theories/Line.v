(** Model of Line<D> (include/mandoline/line.hpp, line_impl.hpp).  Vectors are lists of exact rationals of any common length.
    [project] normalises the direction in the code: clamp(pa . (d/len), 0, len) * (d/len); here the equal, square-root free clamp((pa . d)/(d . d), 0, 1) * d.
    With a zero direction Eigen's normalize() leaves the zero vector, and the product is zero, as here ([/ 0 = 0]). *)
From Verif Require Import Base Num Sparse.
Set Implicit Arguments.
Local Open Scope Qc_scope.

Definition vec : Type := list Qc.
Record line := mkLine { l_start : vec; l_end : vec }.
Definition vplus (a b : vec) : vec := zipwith Qcplus a b.
Definition vminus (a b : vec) : vec := zipwith Qcminus a b.
Definition vscale (k : Qc) (a : vec) : vec := map (Qcmult k) a.
Definition vdot (a b : vec) : Qc := lsum (fun '(x, y) => x * y) (combine a b).
(** line.hpp:20 *)
Definition direction (l : line) : vec := vminus (l_end l) (l_start l).
(** line_impl.hpp:59-61 *)
Definition interp (l : line) (t : Qc) : vec := vplus (l_start l) (vscale t (direction l)).
(** std::clamp *)
Definition clamp (x lo hi : Qc) : Qc := if qltb x lo then lo else if qltb hi x then hi else x.
(** line_impl.hpp:64-76 *)
Definition project (l : line) (p : vec) : vec :=
  let d := direction l in
  vplus (vscale (clamp (vdot (vminus p (l_start l)) d / vdot d d) 0 1) d) (l_start l).
(** line_impl.hpp:77-81, squared *)
Definition distance2 (l : line) (p : vec) : Qc := let r := vminus (project l p) p in vdot r r.
(** line_impl.hpp:11-40: colwise sum and differences *)
Definition line_plus (l : line) (T : vec) : line := mkLine (vplus (l_start l) T) (vplus (l_end l) T).
Definition line_minus (l : line) (T : vec) : line := mkLine (vminus (l_start l) T) (vminus (l_end l) T).
(** line_impl.hpp:46-57 *)
Definition line_scale (s : Qc) (l : line) : line := mkLine (vscale s (l_start l)) (vscale s (l_end l)).
Definition line_div (l : line) (s : Qc) : line := mkLine (map (fun x => x / s) (l_start l)) (map (fun x => x / s) (l_end l)).
(** line_impl.hpp:82-92 *)
Definition line_cwise_product (l : line) (p : vec) : line := mkLine (zipwith Qcmult p (l_start l)) (zipwith Qcmult p (l_end l)).
Definition line_cwise_quotient (l : line) (p : vec) : line := let pinv := map Qcinv p in mkLine (zipwith Qcmult pinv (l_start l)) (zipwith Qcmult pinv (l_end l)).
