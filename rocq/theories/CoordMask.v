(** Model of mandoline::coord_mask<D,T> with T = int
    (include/mandoline/coord_mask.hpp:16-105, include/mandoline/coord_mask_impl.hpp).
    A mask is the std::array<std::optional<int>,D>, written as a list of length D;
    int is modelled as Z (no overflow). *)
From Verif Require Import Base.
Set Implicit Arguments.
Set Asymmetric Patterns.
Local Open Scope Z_scope.

Definition coord := list Z.
Definition mask := list (option Z).

(** coord_mask_impl.hpp:19-20, reset(): every axis unbound. *)
Definition mask_reset (D : nat) : mask := repeat None D.

(** coord_mask_impl.hpp:21-25, reset(idx,coord); None = out-of-bounds write (UB). *)
Fixpoint list_set (A : Type) (l : list A) (i : nat) (a : A) : option (list A) :=
  match l, i with
  | [], _ => None
  | _ :: t, O => Some (a :: t)
  | x :: t, S j => match list_set t j a with Some t' => Some (x :: t') | None => None end
  end.
Definition mask_plane (D : nat) (idx : nat) (c : Z) : option mask :=
  list_set (mask_reset D) idx (Some c).

(** coord_mask_impl.hpp:26-29, reset(coord): every axis bound. *)
Definition mask_of_coord (c : coord) : mask := map Some c.

Definition is_some (A : Type) (o : option A) : bool := match o with Some _ => true | None => false end.

(** coord_mask_impl.hpp:31-35, is_bound(idx) (assert idx<D; None = out of range). *)
Definition is_bound (m : mask) (i : nat) : option bool := option_map (@is_some Z) (nth_error m i).

(** coord_mask_impl.hpp:37-46 / 49-58: first axis whose boundness equals [b]; -1 if none.
    The asserts on count() are debug-only and are preconditions of the theorems. *)
Fixpoint first_axis (b : bool) (i : Z) (m : mask) : Z :=
  match m with
  | [] => -1
  | o :: t => if Bool.eqb (is_some o) b then i else first_axis b (i + 1) t
  end.
Definition unbound_axis (m : mask) : Z := first_axis false 0 m.
Definition bound_axis (m : mask) : Z := first_axis true 0 m.

(** coord_mask_impl.hpp:59-67, as_array: dereferences every optional; None = UB (empty optional). *)
Fixpoint as_array (m : mask) : option coord :=
  match m with
  | [] => Some []
  | Some v :: t => match as_array t with Some c => Some (v :: c) | None => None end
  | None :: _ => None
  end.

(** coord_mask_impl.hpp:68-71, count. *)
Definition mask_count (m : mask) : nat := length (filter (@is_some Z) m).
(** coord_mask_impl.hpp:73-76, all;  77-80, active. *)
Definition mask_all (m : mask) : bool := forallb (@is_some Z) m.
Definition mask_active (m : mask) : bool := existsb (@is_some Z) m.

(** Loop body of operator&= (coord_mask_impl.hpp:83-88). *)
Definition and_entry (a b : option Z) : option Z :=
  match a, b with
  | Some x, Some y => if x =? y then Some x else None
  | _, _ => None
  end.
(** coord_mask_impl.hpp:81-97, operator&= and operator&. *)
Definition mask_and (a b : mask) : mask := zipwith and_entry a b.

(** Loop body of operator|= (coord_mask_impl.hpp:100-105): the source really tests [a && b]. *)
Definition or_entry (a b : option Z) : option Z :=
  match a, b with
  | Some x, Some y => if x =? y then Some x else None
  | _, _ => None
  end.
(** coord_mask_impl.hpp:98-114, operator|= and operator|. *)
Definition mask_or (a b : mask) : mask := zipwith or_entry a b.

(** coord_mask_impl.hpp:115-129, operator-= and operator-. *)
Definition mask_sub (a b : mask) : mask :=
  zipwith (fun x y => match y with Some _ => None | None => x end) a b.

(** coord_mask.hpp:19-22 *)
Inductive PartialOrdering := POLess | POGreater | POEqual | POUnknown.

(** coord_mask_impl.hpp:131-168, partial_ordering: the loop with its running value and early
    returns. *)
Fixpoint po_loop (po : PartialOrdering) (a b : mask) : PartialOrdering :=
  match a, b with
  | x :: a', y :: b' =>
      match x, y with
      | Some u, Some v => if negb (u =? v) then POUnknown else po_loop po a' b'
      | Some _, None =>
          match po with
          | POGreater => po_loop po a' b'
          | POLess => POUnknown
          | POEqual => po_loop POGreater a' b'
          | POUnknown => POUnknown
          end
      | None, Some _ =>
          match po with
          | POLess => po_loop po a' b'
          | POGreater => POUnknown
          | POEqual => po_loop POLess a' b'
          | POUnknown => POUnknown
          end
      | None, None => po_loop po a' b'
      end
  | _, _ => po
  end.
Definition partial_ordering (a b : mask) : PartialOrdering := po_loop POEqual a b.

(** coord_mask_impl.hpp:169-173, subsumes;  174-178, strict_subsumes. *)
Definition subsumes (a b : mask) : bool :=
  match partial_ordering a b with POGreater | POEqual => true | _ => false end.
Definition strict_subsumes (a b : mask) : bool :=
  match partial_ordering a b with POGreater => true | _ => false end.

(** coord_mask_impl.hpp:199-206, clamp(coord_type&). *)
Definition clamp_coord (m : mask) (c : coord) : coord :=
  zipwith (fun v t => match t with Some x => x | None => v end) c m.

(** std::bitset<D> as a list of D booleans, bit 0 first. *)
Definition bitset := list bool.
(** std::bitset<D>(i): the D low bits of i. *)
Definition bitset_of_Z (D : nat) (i : Z) : bitset := map (fun j => Z.testbit i (Z.of_nat j)) (seq 0 D).
Definition bitset_and (a b : bitset) : bitset := zipwith andb a b.
Definition bitset_or (a b : bitset) : bitset := zipwith orb a b.
Fixpoint bitset_eqb (a b : bitset) : bool :=
  match a, b with
  | [], [] => true
  | x :: a', y :: b' => Bool.eqb x y && bitset_eqb a' b'
  | _, _ => false
  end.

(** coord_mask_impl.hpp:218-225, as_bitset. *)
Definition as_bitset (m : mask) : bitset := map (@is_some Z) m.

(** coord_mask_impl.hpp:227-250, possible_cells: loop i < 2<<D (each subset is met twice), insertion
    into a std::set.  The _DEBUG-only assertion that bound entries equal [c] is not executed. *)
Definition possible_cells (m : mask) (c : coord) : list coord :=
  let D := length m in
  let clamped := as_bitset m in
  fold_left
    (fun ret i =>
       let bs := bitset_of_Z D i in
       if bitset_eqb (bitset_and bs clamped) bs
       then set_insert zlex (zipwith (fun x b => x - (if b : bool then 1 else 0)) c bs) ret
       else ret)
    (zrange 0 (Z.to_nat (Z.shiftl 2 (Z.of_nat D))))
    [].
