(** Model of the exploded mesh viewer (examples/exploded_mesh/main.cpp): the window's state and its events.  The exploded meshes are Exploder.v.
    External and passed as arguments: the slicer of a region ([slice_of], from the region's vertices of this moment, the triangles it was built with, the origin and the direction; Slicer.v
    models it on its own) and the colours it makes of the vertex colours ([slice_cols], colours * barycentric_map^T), and the random colours (an event carries them).
    Floats are exact here except that 0 / 0 is kept apart: a colour component None is NaN.  GL buffers are the data put into them; the alpha row (constant 1) is left out. *)
From Verif Require Import Base Num AdaptiveGrid Exploder.
Set Implicit Arguments.
Local Open Scope Z_scope.

Definition tri := (list q3 * list c3)%type.
Definition comp := option Qc.
Definition rgb := (comp * comp * comp)%type.
Record xst := mkX { x_e : exploder; x_regs : list Z; x_cols : list rgb; x_slice : bool; x_multi : bool; x_index : Z; x_scale : Qc; x_org : q3; x_dir : q3;
  x_cache : tri; x_bufs : list tri; x_cbufs : list (list (option rgb)); x_out : option tri }.
Inductive xevent := XSlice (b : bool) | XMulti (b : bool) | XIndex (i : Z) | XWire | XRandom (c : list rgb) | XRegion | XOrigin (o : q3) | XDirection (d : q3) | XScale (s : Qc) | XCenters (t : Qc) | XSave.
(** ** :195-215: the colour of a region; the double division r / ME is NaN for 0 / 0 and infinite for r <> 0 (regions are at most ME, and then ME < 0: C++'s % is negative or 0 there) *)
Definition quot_nan (r me : Z) : comp := if me =? 0 then None else Some (Z2Qc r / Z2Qc me)%Qc.
Definition region_color (r me : Z) : rgb :=
  let s := quot_nan r me in let o := Some 0%Qc in
  match Z.rem r 7 with 0 => (s, o, o) | 1 => (o, s, o) | 2 => (o, o, s) | 3 => (s, s, o) | 4 => (s, o, s) | 5 => (o, s, s) | 6 => (s, s, s) | _ => (o, o, o) end.
(** std::max_element of no regions: None (undefined behaviour) *)
Definition region_colors3 (R : list Z) : option (list rgb) := match R with [] => None | r :: t => let me := fold_left Z.max t r in Some (map (fun r => region_color r me) (r :: t)) end.
Definition black : rgb := (Some 0, Some 0, Some 0)%Qc.
Definition is_nil (A : Type) (l : list A) : bool := match l with [] => true | _ => false end.
(** vector element assignment *)
Fixpoint set_nth (A : Type) (l : list A) (n : nat) (a : A) : list A := match l, n with [], _ => [] | _ :: t, O => a :: t | x :: t, S k => x :: set_nth t k a end.

Section W.
  Variables (slice_of : list q3 -> list c3 -> q3 -> q3 -> tri) (slice_cols : list q3 -> list c3 -> q3 -> q3 -> list (option rgb) -> list (option rgb)).
  (** :83-99 *)
  Definition region_cbuf (s : xst) (r : Z) : list (option rgb) :=
    let C := Exploder.colors (x_e s) (fun i => nth i (x_cols s) black) [r] in
    if x_slice s then slice_cols (mesh_V (x_e s) (x_scale s) [r]) (mesh_F (x_e s) [r]) (x_org s) (x_dir s) C else C.
  Definition set_region_colors (s : xst) : xst :=
    mkX (x_e s) (x_regs s) (x_cols s) (x_slice s) (x_multi s) (x_index s) (x_scale s) (x_org s) (x_dir s) (x_cache s) (x_bufs s) (map (region_cbuf s) (x_regs s)) (x_out s).
  (** :59-81 *)
  Definition update_region (s : xst) (acc : tri * list tri) (ir : nat * Z) : tri * list tri :=
    let '(i, r) := ir in
    let V := mesh_V (x_e s) (x_scale s) [r] in let F := mesh_F (x_e s) [r] in
    if negb (is_nil V) && negb (is_nil F) then
      let VF := if x_slice s then slice_of V F (x_org s) (x_dir s) else (V, F) in
      (if x_multi s && (x_index s =? Z.of_nat i) then VF else fst acc, set_nth (snd acc) i VF)
    else acc.
  Definition update_exploded (s : xst) : xst :=
    let '(c, b) := fold_left (update_region s) (enum_nat (x_regs s)) (x_cache s, x_bufs s) in
    set_region_colors (mkX (x_e s) (x_regs s) (x_cols s) (x_slice s) (x_multi s) (x_index s) (x_scale s) (x_org s) (x_dir s) c b (x_cbufs s) (x_out s)).
  Definition with_view (s : xst) (e : exploder) (sl : bool) (sc : Qc) (o d : q3) : xst :=
    mkX e (x_regs s) (x_cols s) sl (x_multi s) (x_index s) sc o d (x_cache s) (x_bufs s) (x_cbufs s) (x_out s).
  Definition with_cols (s : xst) (c : list rgb) : xst :=
    mkX (x_e s) (x_regs s) c (x_slice s) (x_multi s) (x_index s) (x_scale s) (x_org s) (x_dir s) (x_cache s) (x_bufs s) (x_cbufs s) (x_out s).
  Definition with_multi (s : xst) (b : bool) (i : Z) : xst :=
    mkX (x_e s) (x_regs s) (x_cols s) (x_slice s) b i (x_scale s) (x_org s) (x_dir s) (x_cache s) (x_bufs s) (x_cbufs s) (x_out s).
  Definition with_out (s : xst) (o : option tri) : xst :=
    mkX (x_e s) (x_regs s) (x_cols s) (x_slice s) (x_multi s) (x_index s) (x_scale s) (x_org s) (x_dir s) (x_cache s) (x_bufs s) (x_cbufs s) o.
  (** ** :158-252, gui *)
  Definition xstep (s : xst) (ev : xevent) : option xst :=
    match ev with
    | XSlice b => Some (update_exploded (with_view s (x_e s) b (x_scale s) (x_org s) (x_dir s)))
    | XMulti b => Some (with_multi s b (x_index s))
    | XIndex i => Some (if x_multi s then with_multi s true i else s)
    | XWire => Some (update_exploded s)
    | XRandom c => Some (set_region_colors (with_cols s c))
    | XRegion => option_map (fun c => set_region_colors (with_cols s c)) (region_colors3 (ex_regions (x_e s)))
    | XOrigin o => Some (update_exploded (with_view s (x_e s) (x_slice s) (x_scale s) o (x_dir s)))
    | XDirection d => Some (update_exploded (with_view s (x_e s) (x_slice s) (x_scale s) (x_org s) d))
    | XScale sc => Some (update_exploded (with_view s (x_e s) (x_slice s) sc (x_org s) (x_dir s)))
    | XCenters t => Some (update_exploded (with_view s (set_centers t (x_e s)) (x_slice s) (x_scale s) (x_org s) (x_dir s)))
    | XSave => let s' := update_exploded s in Some (with_out s' (Some (x_cache s')))
    end.
  Fixpoint xrun (s : xst) (es : list xevent) : option xst := match es with [] => Some s | e :: t => match xstep s e with Some s' => xrun s' t | None => None end end.
  (** :164-181: is region number i visible *)
  Definition visible (s : xst) (i : nat) : bool := if x_multi s then Z.of_nat i =? x_index s else true.
  (** :102-155: the start; [regs] is the std::set of the regions, [e] the MeshExploder of the mesh, [c] the first random colours *)
  Definition xstart (e : exploder) (regs : list Z) (c : list rgb) : xst :=
    update_exploded (mkX e regs c false false 0 (Q2Qc (11 # 10)) (0, 0, Q2Qc (-1 # 10))%Qc (0, 0, - (1))%Qc ([], []) (repeat ([], []) (length regs)) (repeat [] (length regs)) None).
End W.
