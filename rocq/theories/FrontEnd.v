(** Models of the command-line front ends: tools/remove_self_intersections.cpp:40-48, tools/cfg_to_cutmesh.cpp:29-57,
    tools/make_cutmesh_from_cmdline.cpp:109-190, src/tools/cutmesh_info.cpp:74-107.  Exact rational arithmetic. *)
From Verif Require Import Base Num CoordMask Vertex Grid SmallestEdge AdaptiveGrid Mesh Sparse Mesh2 Volume Queries3 Slicer.
From Coq Require Import Ascii.
Set Implicit Arguments.
Local Open Scope Z_scope.

(** ** remove_self_intersections.cpp:40-48: std::sort of the three indices, then a std::set of triples *)
Fixpoint insert_sorted (x : Z) (l : list Z) : list Z := match l with [] => [x] | y :: t => if x <=? y then x :: l else y :: insert_sorted x t end.
Definition sort_triple (f : list Z) : list Z := fold_right insert_sorted [] f.
Definition unique_triangles (F : list (list Z)) : list (list Z) := set_of_list zlex (map sort_triple F).

(** ** strings: lists of characters; std::string positions with None = npos *)
Definition str := list ascii.
Fixpoint index (p : ascii -> bool) (s : str) : option nat := match s with [] => None | c :: t => if p c then Some O else option_map S (index p t) end.
Definition find_at (p : ascii -> bool) (s : str) (pos : nat) : option nat := option_map (Nat.add pos) (index p (skipn pos s)).
Definition is_space (c : ascii) : bool := Ascii.eqb c " "%char.
(** substr(start, size): start > size() throws (None) *)
Definition substr (s : str) (start size : nat) : option str := if (length s <? start)%nat then None else Some (firstn size (skipn start s)).
(** cfg_to_cutmesh.cpp:32-40, one round: [start] = the local variable, npos at first; start+1 wraps around to 0.
    From npos substr throws (its first argument is larger than any size) *)
Definition tok_round (s : str) (start : option nat) : option (str * option nat) :=
  match find_at (fun c => negb (is_space c)) s (match start with Some k => S k | None => O end) with
  | None => None
  | Some st =>
      let en := find_at is_space s st in
      match substr s st (match en with Some e => e | None => length s end - st) with Some v => Some (v, en) | None => None end
  end.
(** :29-43 *)
Definition parse_3toks (s : str) : option (str * str * str) :=
  match tok_round s None with
  | Some (a, e1) => match tok_round s e1 with
                    | Some (b, e2) => match tok_round s e2 with Some (c, _) => Some (a, b, c) | None => None end
                    | None => None end
  | None => None
  end.
(** make_cutmesh_from_cmdline.cpp:117-136: exactly two commas, then std::find from one comma to the next; [stoi] converts a piece (None = it throws).
    After the last piece [it] is moved past the end of the string and not used again *)
Definition is_comma (c : ascii) : bool := Ascii.eqb c ","%char.
Definition comma_step (s : str) : str * str := match index is_comma s with Some k => (firstn k s, skipn (S k) s) | None => (s, []) end.
Definition parse_shape (stoi : str -> option Z) (s : str) : option (Z * Z * Z) :=
  if (length (filter is_comma s) =? 2)%nat then
    let '(a, r1) := comma_step s in let '(b, r2) := comma_step r1 in let '(c, _) := comma_step r2 in
    match stoi a with Some x => match stoi b with Some y => match stoi c with Some z => Some (x, y, z) | None => None end | None => None end | None => None end
  else None.

(** ** make_cutmesh_from_cmdline.cpp:147-190 *)
Local Open Scope Qc_scope.
Definition tenth : Qc := Q2Qc (1 # 10).
Definition vhalf (p : q3) : q3 := vscale qhalf p.
(** Eigen AlignedBox::center, sizes *)
Definition box_center (b : q3 * q3) : q3 := vhalf (vadd (fst b) (snd b)).
Definition box_sizes (b : q3 * q3) : q3 := vadd (snd b) (vneg (fst b)).
Definition max_coeff (p : q3) : Qc := let '(x, y, z) := p in qmax (qmax x y) z.
Definition recenter (V : list q3) : list q3 := match bbox V with Some b => map (fun v => vadd v (vneg (box_center b))) V | None => V end.
(** :155-160; None = division by a zero size *)
Definition normalized (V : list q3) : option (list q3) :=
  match bbox V with
  | None => Some V
  | Some b => let m := max_coeff (box_sizes b) in
              if qeqb m 0 then None else Some (map (fun v => vscale (1 / m) (vadd v (vneg (box_center b)))) V)
  end.
Definition place_mesh (prescaled normalize : bool) (V : list q3) : option (list q3) :=
  let V1 := if prescaled then V else recenter V in if normalize then normalized V1 else Some V1.
(** :176-184: the box handed to StaggeredGrid::from_bbox *)
Definition domain_box (V : list q3) : option (q3 * q3) :=
  option_map (fun b => let s := vhalf (box_sizes b) in (vadd (fst b) (vneg (vscale tenth s)), vadd (snd b) (vscale tenth s))) (bbox V).
(** :191-195 *)
Definition level_of (a : Z) : Z := (if 0 <=? a then a else 0)%Z.
Local Close Scope Qc_scope.

(** ** cutmesh_info.cpp:74-90: std::map<int,int>, region_counts[v]++ *)
Definition region_counts (rs : list Z) : list (Z * Z) :=
  fold_left (fun m v => map_set Z.compare v (match map_find Z.compare v m with Some n => n + 1 | None => 1 end) m) rs [].
(** :92-107: (cell, axis) pairs reported as outside of the grid *)
Definition outside_report (shape : list Z) (cells : list (list Z)) : list (Z * nat) :=
  flat_map (fun '(k, g) => flat_map (fun '(d, (i, m)) => if (i <? 0) || (m <=? i) then [(k, d)] else []) (combine (seq 0 (length shape)) (combine g shape))) (enum cells).
