(** Vocabulary for edge collapse and for walking around a point of a dynamic triangle mesh. *)
From Coq Require Import List Arith Relations.
Import ListNotations.
From Verif Require Import Imp DtriModel DtriSpec CollModel.

(** A corner is a pair (triangle, number of the corner).  [turn m c c']: c' is the corner at the same point in the triangle
    behind the edge that leaves c counter-clockwise (the edge opposite to the next corner). *)
Definition turn (m : list dtri) (c c' : nat * nat) : Prop :=
  exists k, twin m (fst c) (nx (snd c)) (fst c') k /\ snd c' = nx k.
(** The corners reached by turning around the point, any number of times. *)
Definition around (m : list dtri) : nat * nat -> nat * nat -> Prop := clos_refl_trans _ (turn m).

(** Two corners of one fan: one is reached from the other (an open fan can be turned in one direction only). *)
Definition in_fan (m : list dtri) (c x : nat * nat) : Prop := around m c x \/ around m x c.
(** All corners at this point belong to one fan. *)
Definition whole_fan (m : list dtri) (t i : nat) : Prop :=
  forall s j, s < length m -> j < 3 -> V m s j = V m t i -> in_fan m (t, i) (s, j).
(** No boundary edge is met when turning around the corner. *)
Definition closed_fan (m : list dtri) (t i : nat) : Prop :=
  forall s j, around m (t, i) (s, j) -> L m s (nx j) <> None.

(** The edge between t and u is the edge of no other triangle. *)
Definition edge_once (m : list dtri) (t e u : nat) : Prop :=
  forall s, s < length m -> corner_of m s (V m t (nx e)) -> corner_of m s (V m t (pv e)) -> s = t \/ s = u.
(** No edge is used twice in the same direction. *)
Definition simple_edges (m : list dtri) : Prop :=
  forall t i t' i', t < length m -> t' < length m -> i < 3 -> i' < 3 ->
    V m t (nx i) = V m t' (nx i') -> V m t (pv i) = V m t' (pv i') -> t = t' /\ i = i'.

(** Two points that are corners of one triangle. *)
Definition joined (m : list dtri) (p q : nat) : Prop :=
  p <> q /\ exists t, t < length m /\ corner_of m t p /\ corner_of m t q.

(** No edge is used twice in the same direction, and the corners at each point are one fan. *)
Definition manifold (m : list dtri) : Prop :=
  simple_edges m /\ forall t i, t < length m -> i < 3 -> whole_fan m t i.

(** The edge between t (edge e) and u (edge k) can be collapsed: no boundary edge at either end, no point joined to both ends
    apart from the far corners of t and u, and t and u do not close up with two further triangles to a tetrahedron. *)
Definition link_ok (m : list dtri) (t e u k : nat) : Prop :=
  closed_fan m t (pv e) /\ closed_fan m t (nx e) /\
  (forall q, joined m q (V m t (nx e)) -> joined m q (V m t (pv e)) -> q = V m t e \/ q = V m u k) /\
  ~ (L m t (nx e) = L m u (pv k) /\ L m t (pv e) = L m u (nx k)).

(** [f] is [m] without the triangles t and u (linked along edge e of t, edge k of u); [o] tells the old number of every
    triangle.  The point opposite to edge pv e of t is merged into the one opposite to edge nx e, and the two triangles behind t
    are linked to each other, and so are the two triangles behind u. *)
Definition merged (m f : list dtri) (t e u k : nat) (o : nat -> nat) : Prop :=
  length f + 2 = length m /\
  (forall s, s < length f -> o s < length m /\ o s <> t /\ o s <> u) /\
  (forall x, x < length m -> x <> t -> x <> u -> exists s, s < length f /\ o s = x) /\
  (forall s s', s < length f -> s' < length f -> o s = o s' -> s = s') /\
  (forall s i, s < length f -> i < 3 -> around m (t, pv e) (o s, i) -> V f s i = V m t (nx e)) /\
  (forall s i, s < length f -> i < 3 -> ~ around m (t, pv e) (o s, i) -> V f s i = V m (o s) i) /\
  (forall s i, s < length f -> i < 3 -> (L f s i = None <-> L m (o s) i = None)) /\
  (forall s i j, s < length f -> i < 3 -> j < length f -> L m (o s) i = Some (o j) -> L f s i = Some j) /\
  (forall s a s' b, s < length f -> s' < length f ->
     twin m t (nx e) (o s) a -> twin m t (pv e) (o s') b -> L f s a = Some s' /\ L f s' b = Some s) /\
  (forall s a s' b, s < length f -> s' < length f ->
     twin m u (nx k) (o s) a -> twin m u (pv k) (o s') b -> L f s a = Some s' /\ L f s' b = Some s).

(** Edits with collapses. *)
Inductive edit2 := Plain (ed : edit) | Collapse (t e : nat).
Definition allowed2 (po : list dpnt) (m : list dtri) (ed : edit2) : Prop :=
  match ed with
  | Plain ed => allowed po m ed
  | Collapse t e => t < length m /\ exists u k, twin m t e u k /\ edge_once m t e u
  end.
Definition run2 (ed : edit2) (st : list dpnt * list dtri) : option (list dpnt * list dtri) :=
  match ed with
  | Plain ed => run1 ed st
  | Collapse t e => '(_, s) <- CollapseEdge_MeshDTri t e (fst st) (snd st) ;; Some s
  end.
Fixpoint allowed_all2 (eds : list edit2) (st : list dpnt * list dtri) : Prop :=
  match eds with
  | [] => True
  | ed :: r => allowed2 (fst st) (snd st) ed /\ forall st', run2 ed st = Some st' -> allowed_all2 r st'
  end.
