(** Model of the operators on the mesh edges of a CutCellMesh<2> (the immersed curve): src/operators/diffgeo2.cpp:22-166.
    Lengths are exact rationals.  Eigen's matrices are triplet lists (Sparse.v). *)
From Verif Require Import Base Num CoordMask Vertex Grid SmallestEdge AdaptiveGrid Mesh ExteriorGrid Sparse Mesh2.
Set Implicit Arguments.
Local Open Scope Z_scope.

(** std::map<int, std::array<int,2>> *)
Definition adjacency : Type := list (Z * (Z * Z)).
Definition is_mesh_edge (e : cut_edge2) : bool := match e2_id e with MeshEdge _ => true | AxialEdge _ _ => false end.
(** :24-25, the enumerated cut edges that are mesh edges, with their indices *)
Definition mesh_edges (m : mesh2) : list (Z * edge) := map (fun '(i, e) => (i, e2_ix e)) (filter (fun '(i, e) => is_mesh_edge e) (enum (m2_edges m))).
(** :26-31 and 32-37: the first edge met goes to slot 0, every later one overwrites slot 1 *)
Definition add_end (v e : Z) (adj : adjacency) : adjacency :=
  match map_find Z.compare v adj with
  | None => map_set Z.compare v (e, -1) adj
  | Some p => map_set Z.compare v (fst p, e) adj
  end.
(** :22-39 *)
Definition build (m : mesh2) : adjacency := fold_left (fun adj '(i, e) => add_end (snd e) i (add_end (fst e) i adj)) (mesh_edges m) [].
(** :42-50, the std::sets of keys, all of them and those with a free slot *)
Definition unseen0 (adj : adjacency) : list Z := map fst adj.
Definition open0 (adj : adjacency) : list Z := map fst (filter (fun '(_, (a, b)) => (a <? 0) || (b <? 0)) adj).
Record walk := mkWalk { w_adj : adjacency; w_unseen : list Z; w_open : list Z }.
(** :51-59 *)
Definition erase (v : Z) (l : list Z) : list Z := filter (fun x => negb (x =? v)) l.
Definition w_remove (v : Z) (w : walk) : walk := mkWalk (w_adj w) (erase v (w_unseen w)) (erase v (w_open w)).
(** adj[v]: operator[] creates {0,0} when the key is absent *)
Definition adj_at (adj : adjacency) (v : Z) : Z * Z := match map_find Z.compare v adj with Some p => p | None => (0, 0) end.
Definition swap_to (e : Z) (p : Z * Z) : Z * Z := if fst p =? e then p else (snd p, fst p).
(** :60-87, the body of the do-while; :66 always reads the indices [e] of start_edge, never those of the current edge.  None = fuel exhausted *)
Fixpoint run (fuel : nat) (e : edge) (start vertex eix : Z) (w : walk) : option walk :=
  match fuel with
  | O => None
  | S f =>
    let v := if fst e =? vertex then snd e else fst e in
    let w1 := w_remove v w in
    let de := swap_to eix (adj_at (w_adj w1) v) in
    let w2 := mkWalk (map_set Z.compare v de (w_adj w1)) (w_unseen w1) (w_open w1) in
    if snd de <? 0 then Some w2 else if v =? start then Some w2 else run f e start v (snd de) w2
  end.
(** ccm.cut_edge(k).indices; None = index out of range *)
Definition cut_edge_ix (m : mesh2) (k : Z) : option edge := if k <? 0 then None else option_map e2_ix (nth_error (m2_edges m) (Z.to_nat k)).
(** two iterations of the do-while always suffice (proved: c90_total) *)
Definition run_from (m : mesh2) (start k : Z) (w : walk) : option walk := match cut_edge_ix m k with Some e => run 2 e start start k w | None => None end.
(** :88-100 *)
Fixpoint open_loop (fuel : nat) (m : mesh2) (w : walk) : option walk :=
  match w_open w with
  | [] => Some w
  | s :: _ => match fuel with
              | O => None
              | S f => let w1 := w_remove s w in
                       let p := adj_at (w_adj w1) s in
                       match run_from m s (if fst p =? -1 then snd p else fst p) w1 with Some w2 => open_loop f m w2 | None => None end
              end
  end.
(** :101-109 *)
Fixpoint unseen_loop (fuel : nat) (m : mesh2) (w : walk) : option walk :=
  match w_unseen w with
  | [] => Some w
  | s :: _ => match fuel with
              | O => None
              | S f => let w1 := w_remove s w in
                       match run_from m s (fst (adj_at (w_adj w1) s)) w1 with Some w2 => unseen_loop f m w2 | None => None end
              end
  end.
(** :22-111 *)
Definition surface_adjacency (m : mesh2) : option adjacency :=
  let a := build m in
  match open_loop (length a) m (mkWalk a (unseen0 a) (open0 a)) with
  | Some w => option_map w_adj (unseen_loop (length a) m w)
  | None => None
  end.

(** :126-141, entry v of the vector; [len] = edge_lengths(ccm) *)
Definition slot (f : Z -> Qc) (i : Z) : Qc := if 0 <=? i then f i else 0%Qc.
Definition surface_dual_length (len : Z -> Qc) (adj : adjacency) (v : Z) : Qc :=
  (lsum (fun '(k, (a, b)) => if (k =? v)%Z then slot len a + slot len b else 0) adj / (1 + 1))%Qc.
(** :142-157 *)
Definition surface_boundary (adj : adjacency) : list triplet :=
  flat_map (fun '(v, (n, p)) => (if 0 <=? n then [(n, v, (- (1))%Qc)] else []) ++ (if 0 <=? p then [(p, v, 1%Qc)] else [])) adj.
(** :158-162, B diag(h) applied to u *)
Definition surface_divergence (adj : adjacency) (h u : Z -> Qc) (e : Z) : Qc := mulv (surface_boundary adj) (fun v => h v * u v)%Qc e.
(** :163-168, B diag(h) B^T applied to x *)
Definition surface_laplacian (adj : adjacency) (h x : Z -> Qc) (e : Z) : Qc := mulv (surface_boundary adj) (fun v => h v * mulTv (surface_boundary adj) x v)%Qc e.
