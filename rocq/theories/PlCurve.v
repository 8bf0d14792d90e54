(** Model of the piecewise-linear curve reader and writer (src/tools/plcurve_io.cpp:16-132 and 232-272).
    A file is a list of lines, a line a list of tokens (commas and blanks separate tokens; 82-91).  How numbers are written and parsed is
    kept in a parameter record: iostream insertion of int and double, std::stoi, std::stod (None = std::invalid_argument or std::out_of_range). *)
From Verif Require Import Base Num AdaptiveGrid.
Set Implicit Arguments.
Local Open Scope Z_scope.

Record numfmt (tok : Type) := mkFmt { put_int : Z -> tok; put_dbl : Qc -> tok; stoi : tok -> option Z; stod : tok -> option Qc;
  kw_vertices : tok; kw_edges : tok; is_vertices : tok -> bool; is_edges : tok -> bool; is_elements : tok -> bool }.
Section P.
  Variable tok : Type.
  Variable fm : numfmt tok.
  Definition vtx := (Qc * Qc)%type.
  Definition edge4 := (Z * Z * Z * Z)%type.
  Inductive pstate := Init | Vertices | Edges.
  Record reader := mkRd { rd_state : pstate; rd_vs : list (Z * vtx); rd_es : list (Z * edge4) }.
  (** 48-60: a row of fewer than 2 tokens is ignored, toks[2] of a row of exactly 2 is out of bounds (such rows do not occur here and read as ignored);
      the conversions run in order, an exception leaves the map unchanged *)
  Definition process_vertex (toks : list tok) (vs : list (Z * vtx)) : option (list (Z * vtx)) :=
    match toks with
    | a :: b :: c :: _ => match stoi fm a, stod fm b, stod fm c with Some i, Some x, Some y => Some (map_set Z.compare i (x, y) vs) | _, _, _ => None end
    | _ => Some vs
    end.
  (** 62-83: rows of 3 tokens have no element columns; a row of exactly 4 tokens reads toks[4] out of bounds (not modelled: read as ignored) *)
  Definition process_edge (toks : list tok) (es : list (Z * edge4)) : option (list (Z * edge4)) :=
    match toks with
    | [a; b; c] => match stoi fm a, stoi fm b, stoi fm c with Some i, Some u, Some v => Some (map_set Z.compare i (u, v, -1, -1) es) | _, _, _ => None end
    | a :: b :: c :: d :: e :: _ => match stoi fm a, stoi fm b, stoi fm c, stoi fm d, stoi fm e with Some i, Some u, Some v, Some l, Some r => Some (map_set Z.compare i (u, v, l, r) es) | _, _, _, _, _ => None end
    | _ => Some es
    end.
  (** 85-131: the loop; None = break at "elements".  The switch of 115-122 falls through: a vertex row is also processed as an edge row *)
  Definition read_line (toks : list tok) (r : reader) : option reader :=
    match toks with
    | [] => Some r
    | [t] => if is_vertices fm t then Some (mkRd Vertices (rd_vs r) (rd_es r)) else if is_edges fm t then Some (mkRd Edges (rd_vs r) (rd_es r)) else if is_elements fm t then None else Some r
    | _ => match rd_state r with
           | Vertices => match process_vertex toks (rd_vs r) with
                         | None => Some r
                         | Some vs => match process_edge toks (rd_es r) with None => Some (mkRd Vertices vs (rd_es r)) | Some es => Some (mkRd Vertices vs es) end
                         end
           | Edges => match process_edge toks (rd_es r) with None => Some r | Some es => Some (mkRd Edges (rd_vs r) es) end
           | Init => Some r
           end
    end.
  Fixpoint read_lines (f : list (list tok)) (r : reader) : reader :=
    match f with [] => r | l :: t => match read_line l r with Some r' => read_lines t r' | None => r end end.
  Definition maxkey (V : Type) (m : list (Z * V)) : option Z := match rev m with [] => None | (k, _) :: _ => Some k end.
  (** 134-147: both matrices get max_vidx + 1 columns; a key outside of them is an out-of-bounds write (None), as is an empty map (max_element of an empty range) *)
  Definition fill (V : Type) (d : V) (n : Z) (m : list (Z * V)) : option (list V) :=
    if forallb (fun '(k, _) => (0 <=? k) && (k <? n)) m then Some (map (fun k => match map_find Z.compare k m with Some v => v | None => d end) (zrange 0 (Z.to_nat n))) else None.
  Definition read_plcurve (f : list (list tok)) : option (list vtx * list edge4) :=
    let r := read_lines f (mkRd Init [] []) in
    match maxkey (rd_vs r), maxkey (rd_es r) with
    | Some mv, Some _ => match @fill vtx (0, 0)%Qc (mv + 1) (rd_vs r), @fill edge4 (-1, -1, -1, -1) (mv + 1) (rd_es r) with Some V, Some E => Some (V, E) | _, _ => None end
    | _, _ => None
    end.
  (** 240-264: E is a list of columns of 2 or 4 integers; the blank line between the blocks is skipped by the reader *)
  Definition vrow (iv : Z * vtx) : list tok := [put_int fm (fst iv); put_dbl fm (fst (snd iv)); put_dbl fm (snd (snd iv))].
  Definition erow (ie : Z * list Z) : list tok := put_int fm (fst ie) :: map (put_int fm) (snd ie).
  Definition write_plcurve (V : list vtx) (E : list (list Z)) : list (list tok) :=
    [kw_vertices fm] :: map vrow (combine (zrange 0 (length V)) V) ++ [[]; [kw_edges fm]] ++ map erow (combine (zrange 0 (length E)) E).
End P.
