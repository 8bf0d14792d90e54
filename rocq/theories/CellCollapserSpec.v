(** Vocabulary for the statements about CellCollapser. *)
From Verif Require Import Base SmallestEdge FaceCollapser CellCollapser.
From Coq Require Import Relations.
Local Open Scope Z_scope.
(** a side of a face: (face id, true = front / false = back) *)
Definition side := (Z * bool)%type.
(** the directed edge e of face f has side s on it: s is recorded for the half-face (f, e) *)
Definition side_at (m : hfmap) (f : Z) (e : edge) (s : bool) : Prop := exists c, map_find hf_cmp (f, e) m = Some (c, s).
(** (a, b) are consecutive in the cyclic list l *)
Definition cyc_next (l : list Z) (a b : Z) : Prop :=
  exists i, nth_error l i = Some a /\ nth_error l ((i + 1) mod length l) = Some b.
(** two sides face each other across a shared edge: f' follows f in the cyclic order around e *)
Definition dihedral (ord : edge -> list Z -> list Z) (open : bool) (m : hfmap) (invalid : list edge) (x y : side) : Prop :=
  exists e, fst e < snd e /\ ~ In e invalid /\ (open = true \/ (length (faces_at m e) > 1)%nat) /\
    cyc_next (ord e (faces_at m e)) (fst x) (fst y) /\ side_at m (fst x) e (snd x) /\ side_at m (fst y) (snd e, fst e) (snd y).
Definition dihedrally_connected ord open m invalid : side -> side -> Prop := clos_refl_sym_trans side (dihedral ord open m invalid).

(** *** plain input faces *)
(** e is a directed edge of one of face f's boundary loops *)
Definition face_edge (faces : list (Z * list loop)) (f : Z) (e : edge) : Prop :=
  exists loops C, In (f, loops) faces /\ In C loops /\ cyc_next C (fst e) (snd e).
(** faces with distinct non-negative ids, simple loops of at least three vertices, and no edge used in both directions by one face *)
Definition plain_faces (faces : list (Z * list loop)) : Prop :=
  NoDup (map fst faces) /\
  forall f loops, In (f, loops) faces ->
    0 <= f /\ loops <> [] /\ (forall C, In C loops -> NoDup C /\ (3 <= length C)%nat) /\
    forall a b, face_edge faces f (a, b) -> ~ face_edge faces f (b, a).
(** a closed consistently oriented surface: every directed edge lies in one face and its reverse in another one *)
Definition closed_oriented (faces : list (Z * list loop)) : Prop :=
  (forall f g e, face_edge faces f e -> face_edge faces g e -> f = g) /\
  (forall f a b, face_edge faces f (a, b) -> exists g, face_edge faces g (b, a)).
Definition shares_edge (faces : list (Z * list loop)) (f g : Z) : Prop := exists a b, face_edge faces f (a, b) /\ face_edge faces g (b, a).
Definition edge_connected (faces : list (Z * list loop)) : Z -> Z -> Prop := clos_refl_sym_trans Z (shares_edge faces).
