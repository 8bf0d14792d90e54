(** Model of PLCurve2 (examples/curve_drawing_2d/plcurve2.hpp:4-42, plcurve2.cpp:15-108, 127-129), the curves a user draws and saves.
    A curve is its points and the closed flag; load (plcurve2.cpp:109-126) goes through edge_to_plcurves of mtao and is not modelled. *)
From Verif Require Import Base Num AdaptiveGrid PlCurve.
Set Implicit Arguments.
Local Open Scope Z_scope.

Definition curve := (list vtx * bool)%type.
(** plcurve2.cpp:15-25: size() - !closed; an empty curve is skipped *)
Definition num_sides (c : curve) : nat := match fst c with [] => 0 | _ => if snd c then length (fst c) else length (fst c) - 1 end.
Definition side_from (n : Z) (i : nat) : Z * Z := (Z.of_nat i, (Z.of_nat i + 1) mod n).
Definition curve_sides (c : curve) : list (Z * Z) := map (side_from (Z.of_nat (length (fst c)))) (seq 0 (num_sides c)).
Definition at_pt (l : list vtx) (i : Z) : vtx := nth (Z.to_nat i) l (0, 0)%Qc.
Definition lines (cs : list curve) : list (vtx * vtx) := flat_map (fun c => map (fun '(a, b) => (at_pt (fst c) a, at_pt (fst c) b)) (curve_sides c)) cs.
(** :43-65: voff advances by the size of every non-empty curve *)
Fixpoint edges_from (voff : Z) (cs : list curve) : list (Z * Z) :=
  match cs with
  | [] => []
  | c :: t => map (fun '(a, b) => (a + voff, b + voff)) (curve_sides c) ++ edges_from (voff + Z.of_nat (length (fst c))) t
  end.
Definition edges (cs : list curve) : list (Z * Z) := edges_from 0 cs.
(** :66-106: stl_points() and points() *)
Definition points (cs : list curve) : list vtx := flat_map fst cs.
(** plcurve2.hpp:26-38 and plcurve2.cpp:26-42; None = pop_back of an empty vector *)
Inductive op := AddPoint (p : vtx) | CreateCurve | ClearCurve | PopPoint | PopCurve | ToggleClosed | Clear.
Fixpoint on_last (A : Type) (g : A -> A) (l : list A) : list A := match l with [] => [] | [x] => [g x] | x :: t => x :: on_last g t end.
Definition new_curve : curve := ([], false).
Definition do_op (o : op) (cs : list curve) : option (list curve) :=
  match o with
  | AddPoint p => let cs' := match cs with [] => [new_curve] | _ => cs end in Some (on_last (fun '(ps, b) => (ps ++ [p], b)) cs')
  | CreateCurve => Some (cs ++ [new_curve])
  | ClearCurve => Some (on_last (fun '(ps, b) => ([], b)) cs)
  | PopPoint => Some (on_last (fun '(ps, b) => (removelast ps, b)) cs)
  | PopCurve => match cs with [] => None | _ => Some (removelast cs) end
  | ToggleClosed => Some (on_last (fun '(ps, b) => (ps, negb b)) cs)
  | Clear => Some []
  end.
Fixpoint do_ops (os : list op) (cs : list curve) : option (list curve) :=
  match os with [] => Some cs | o :: t => match do_op o cs with Some cs' => do_ops t cs' | None => None end end.
(** plcurve2.cpp:127-129 *)
Definition save (tok : Type) (fm : numfmt tok) (cs : list curve) : list (list tok) := write_plcurve fm (points cs) (map (fun '(a, b) => [a; b]) (edges cs)).
