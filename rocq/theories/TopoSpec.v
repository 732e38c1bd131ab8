(** Independent vocabulary for mesh topology. *)
From Coq Require Import List Arith.
Import ListNotations.
From Verif Require Import JagSpec.

(** Vertices of face [f] of element [e]. *)
Definition face_verts (elem : list nat) (nno : nat) (face : list (list nat)) (e f : nat) : list nat :=
  map (fun k => nth (e * nno + k) elem 0) (nth f face []).

(** Face f of element e and face g of element j have the same vertices. *)
Definition same_face elem nno face e f j g : Prop :=
  forall v, In v (face_verts elem nno face e f) <-> In v (face_verts elem nno face j g).

(** A face table for elements with [nno] vertices: at least one face, all faces of the same positive size, local
    numbers in range. *)
Definition face_table_ok (nno : nat) (face : list (list nat)) : Prop :=
  exists n, 0 < n /\ face <> [] /\ Forall (fun fc => length fc = n /\ Forall (fun k => k < nno) fc) face.

(** No face repeats a vertex. *)
Definition faces_nodup (elem : list nat) (nel nno : nat) (face : list (list nat)) : Prop :=
  forall e f, e < nel -> f < length face -> NoDup (face_verts elem nno face e f).

(** At most two elements share any given face. *)
Definition two_sided (elem : list nat) (nel nno : nat) (face : list (list nat)) : Prop :=
  forall e f j g k h, e < nel -> j < nel -> k < nel -> f < length face -> g < length face -> h < length face ->
    j <> e -> k <> e -> same_face elem nno face e f j g -> same_face elem nno face e f k h -> j = k.

(** One-step adjacency of elements in a table with [nf] entries per element, and its reflexive-transitive closure. *)
Definition adj_step (adj : list (option nat)) (nf a b : nat) : Prop :=
  exists i, i < nf /\ nth_error adj (a * nf + i) = Some (Some b).

Inductive reach (R : nat -> nat -> Prop) : nat -> nat -> Prop :=
| reach_refl : forall a, reach R a a
| reach_step : forall a b c, reach R a b -> R b c -> reach R a c.

(** Flat index arrays of triangle / quad lists. *)
Definition flat3 (ts : list (nat * nat * nat)) : list nat := flat_map (fun '(a, b, c) => [a; b; c]) ts.
Definition flat4 (qs : list (nat * nat * nat * nat)) : list nat := flat_map (fun '(a, b, c, d) => [a; b; c; d]) qs.

(** Corner i of triangle t, and the directed edge opposite to it. *)
Definition tv (tri : list nat) (t i : nat) : nat := nth (t * 3 + i) tri 0.
Definition dedge (tri : list nat) (t i : nat) : nat * nat := (tv tri t ((i + 1) mod 3), tv tri t ((i + 2) mod 3)).

(** Consistently oriented manifold triangle mesh: corners distinct; each directed edge belongs to one triangle only. *)
Definition oriented_manifold (tri : list nat) (ntri : nat) : Prop :=
  (forall t i j, t < ntri -> i < 3 -> j < 3 -> tv tri t i = tv tri t j -> i = j) /\
  (forall t i t' i', t < ntri -> t' < ntri -> i < 3 -> i' < 3 -> dedge tri t i = dedge tri t' i' -> t = t' /\ i = i').

(** Directed edges of a triangle and of a quad. *)
Definition tri_dedges (t : nat * nat * nat) : list (nat * nat) := let '(a, b, c) := t in [(a, b); (b, c); (c, a)].
Definition quad_dedges (q : nat * nat * nat * nat) : list (nat * nat) :=
  let '(a, b, c, d) := q in [(a, b); (b, c); (c, d); (d, a)].

(** [p] and [q] are the two ends of an edge of some element; [le a b]: local vertices a, b are joined by an edge. *)
Definition mesh_edge (elem : list nat) (nel nno : nat) (le : nat -> nat -> Prop) (p q : nat) : Prop :=
  exists e a b, e < nel /\ le a b /\ nth (e * nno + a) elem 0 = p /\ nth (e * nno + b) elem 0 = q.

(** Geometric local edges: triangles and tetrahedra join any two corners; quads join cyclically consecutive
    corners; hexahedra (VTK numbering) join cube corners that differ in exactly one coordinate. *)
Definition simplex_edge (n a b : nat) : Prop := a < n /\ b < n /\ a <> b.
Definition quad_edge (a b : nat) : Prop := a < 4 /\ b < 4 /\ (b = (a + 1) mod 4 \/ a = (b + 1) mod 4).
Definition hex_corner (a : nat) : nat * nat * nat :=
  nth a [(0,0,0);(1,0,0);(1,1,0);(0,1,0);(0,0,1);(1,0,1);(1,1,1);(0,1,1)] (9,9,9).
Definition hex_edge (a b : nat) : Prop :=
  a < 8 /\ b < 8 /\
  let '(x, y, z) := hex_corner a in let '(x', y', z') := hex_corner b in
  (x <> x' /\ y = y' /\ z = z') \/ (x = x' /\ y <> y' /\ z = z') \/ (x = x' /\ y = y' /\ z <> z').

(** A step to an adjacent element that did not carry [flag] beforehand. *)
Definition mark_step (adj : list (option nat)) (nf : nat) (flags0 : list (option nat)) (flag a b : nat) :=
  adj_step adj nf a b /\ nth b flags0 None <> Some flag.

(** An adjacency table with [nf] entries per element, naming existing elements only. *)
Definition adj_ok (adj : list (option nat)) (nel nf : nat) : Prop :=
  length adj = nel * nf /\ forall i b, nth_error adj i = Some (Some b) -> b < nel.

(** Local geometry of faces: which corners lie on which face.
    Simplex: face f is opposite to corner f.  Quad: face f joins corners f and f+1.
    Hex / Vox: the faces are the coordinate planes x=0, x=1, y=0, y=1, z=0, z=1. *)
Definition vox_corner (a : nat) : nat * nat * nat := (a mod 2, (a / 2) mod 2, a / 4).
Definition on_plane (c : nat * nat * nat) (f : nat) : Prop :=
  let '(x, y, z) := c in
  match f with 0 => x = 0 | 1 => x = 1 | 2 => y = 0 | 3 => y = 1 | 4 => z = 0 | _ => z = 1 end.
Definition table_lists (face : list (list nat)) (nno nf : nat) (on : nat -> nat -> Prop) : Prop :=
  length face = nf /\ forall f a, f < nf -> NoDup (nth f face []) /\ (In a (nth f face []) <-> a < nno /\ on a f).

(** An edge table for elements with [nno] corners lists exactly the local edges [le] (in either direction). *)
Definition edge_table_lists (etab : list (nat * nat)) (nno : nat) (le : nat -> nat -> Prop) : Prop :=
  (forall a b, In (a, b) etab -> a < nno /\ b < nno) /\ (forall a b, le a b <-> In (a, b) etab \/ In (b, a) etab).

(** Reversed triangle; the two triangles of a quad. *)
Definition flip_tri (t : nat * nat * nat) := let '(a, b, c) := t in (a, c, b).
Definition split_quad (q : nat * nat * nat * nat) := let '(a, b, c, d) := q in [(a, b, c); (c, d, a)].

(** The shared edge of a dihedral quad (opposite, opposite, edge start, edge end). *)
Definition quad_mid (q : nat * nat * nat * nat) : nat * nat := let '(_, _, a, b) := q in (a, b).
