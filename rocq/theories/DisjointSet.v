(** mtao::data_structures::DisjointSet<int> (external header, not in /repo), as used by
    src/construction/face_collapser.cpp, cell_collapser.cpp and generator3.cpp.
    Assumed behaviour: a union-find forest; add_node inserts a new singleton and ignores existing data; join
    links the root of one argument under the root of the other; get_root follows parents; reduce_all only
    compresses paths; root_indices lists the positions of the roots in increasing order.  Which of the two roots survives a
    join is unspecified here: the parameter [lnk] decides it from the whole history.
    State: for every node, in insertion order, the data of its current root (this is get_root, hence
    independent of path compression). *)
From Verif Require Import Base.
Set Implicit Arguments.
Local Open Scope Z_scope.

Definition ds := list (Z * Z).
Definition ds_nodes (d : ds) : list Z := map fst d.
Fixpoint ds_root (d : ds) (x : Z) : option Z :=
  match d with
  | [] => None
  | (n, r) :: t => if n =? x then Some r else ds_root t x
  end.
Definition has_node (d : ds) (x : Z) : bool := match ds_root d x with Some _ => true | None => false end.
Definition add_node (d : ds) (x : Z) : ds := if has_node d x then d else d ++ [(x, x)].
Definition relabel (d : ds) (r r' : Z) : ds := map (fun '(n, q) => (n, if q =? r then r' else q)) d.
(** joining data that was never added is an out-of-contract call; it leaves the state unchanged here *)
Definition ds_join (lnk : ds -> Z -> Z -> bool) (d : ds) (a b : Z) : ds :=
  match ds_root d a, ds_root d b with
  | Some ra, Some rb => if ra =? rb then d else if lnk d ra rb then relabel d ra rb else relabel d rb ra
  | _, _ => d
  end.
(** data of the roots in index order *)
Definition ds_roots (d : ds) : list Z := map fst (filter (fun '(n, r) => n =? r) d).
Inductive ds_op := OpAdd (x : Z) | OpJoin (a b : Z).
Definition ds_step (lnk : ds -> Z -> Z -> bool) (d : ds) (o : ds_op) : ds :=
  match o with OpAdd x => add_node d x | OpJoin a b => ds_join lnk d a b end.
Definition ds_run (lnk : ds -> Z -> Z -> bool) (ops : list ds_op) : ds := fold_left (ds_step lnk) ops [].
