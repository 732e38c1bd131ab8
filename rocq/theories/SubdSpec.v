(** Specification for mesh subdivision. *)
From Coq Require Import List Arith Bool Reals.
Import ListNotations.
From Verif Require Import JagSpec TopoSpec.

(** E lists every edge of the mesh once, with the smaller vertex first. *)
Definition lists_edges (E : list (nat * nat)) (is_edge : nat -> nat -> Prop) : Prop :=
  NoDup E /\ forall a b, In (a, b) E <-> a < b /\ is_edge a b.
(** The new vertex of the i-th edge has number base + i, whatever the order of the two ends. *)
Definition numbers_edges (E : list (nat * nat)) (base : nat) (M : nat -> nat -> nat) : Prop :=
  forall i a b, nth_error E i = Some (a, b) -> M a b = base + i /\ M b a = base + i.
(** The elements that contain both vertices, in ascending order. *)
Definition elems_with (elem : list nat) (nel nno a b : nat) : list nat :=
  filter (fun e => existsb (Nat.eqb a) (elem_verts elem nno e) && existsb (Nat.eqb b) (elem_verts elem nno e)) (seq 0 nel).
(** The four parts of a quadrangle, with edge vertices M and centre c. *)
Definition quad_children (M : nat -> nat -> nat) (c : nat) (q : list nat) : list nat :=
  match q with
  | [p0; p1; p2; p3] => [p0; M p0 p1; c; M p3 p0] ++ [p1; M p1 p2; c; M p0 p1] ++ [p2; M p2 p3; c; M p1 p2] ++ [p3; M p3 p0; c; M p2 p3]
  | _ => []
  end.
(** The vertex of the refined hexahedron at the grid point (x, y, z) with 0 <= x, y, z <= 2: a corner, the middle of an edge, of a face, or of the cell. The faces are numbered x=0, x=2, y=0, y=2, z=0, z=2. *)
Definition hex_grid (h : list nat) (M : nat -> nat -> nat) (F : nat -> nat) (c : nat) (x y z : nat) : nat :=
  let p := fun i => nth i h 0 in
  match x, y, z with
  | 0, 0, 0 => p 0 | 2, 0, 0 => p 1 | 2, 2, 0 => p 2 | 0, 2, 0 => p 3 | 0, 0, 2 => p 4 | 2, 0, 2 => p 5 | 2, 2, 2 => p 6 | 0, 2, 2 => p 7
  | 1, 0, 0 => M (p 0) (p 1) | 2, 1, 0 => M (p 1) (p 2) | 1, 2, 0 => M (p 2) (p 3) | 0, 1, 0 => M (p 3) (p 0)
  | 1, 0, 2 => M (p 4) (p 5) | 2, 1, 2 => M (p 5) (p 6) | 1, 2, 2 => M (p 6) (p 7) | 0, 1, 2 => M (p 7) (p 4)
  | 0, 0, 1 => M (p 0) (p 4) | 2, 0, 1 => M (p 1) (p 5) | 2, 2, 1 => M (p 2) (p 6) | 0, 2, 1 => M (p 3) (p 7)
  | 0, 1, 1 => F 0 | 2, 1, 1 => F 1 | 1, 0, 1 => F 2 | 1, 2, 1 => F 3 | 1, 1, 0 => F 4 | 1, 1, 2 => F 5
  | _, _, _ => c
  end.
(** The eight parts of a hexahedron: part i lies at corner i and its corner j is the grid point (corner i + corner j). *)
Definition hex_children (h : list nat) (M : nat -> nat -> nat) (F : nat -> nat) (c : nat) : list nat :=
  flat_map (fun i => map (fun j =>
    let '(x, y, z) := hex_corner i in let '(x', y', z') := hex_corner j in
    hex_grid h M F c (x + x') (y + y') (z + z')) (seq 0 8)) (seq 0 8).

Open Scope R_scope.
(** Coordinate d of vertex i. *)
Definition coord (xyz : list R) (i d : nat) : R := nth (i * 3 + d)%nat xyz 0.
(** The bilinear patch of a quadrangle and the trilinear map of a hexahedron, one coordinate. *)
Definition bilinear (x : nat -> R) (q : list nat) (u v : R) : R :=
  match q with
  | [p0; p1; p2; p3] => (1 - u) * (1 - v) * x p0 + u * (1 - v) * x p1 + u * v * x p2 + (1 - u) * v * x p3
  | _ => 0
  end.
Definition trilinear (x : nat -> R) (h : list nat) (u v w : R) : R :=
  match h with
  | [p0; p1; p2; p3; p4; p5; p6; p7] => (1 - w) * bilinear x [p0; p1; p2; p3] u v + w * bilinear x [p4; p5; p6; p7] u v
  | _ => 0
  end.
(** The place of child k in the unit square of its parent. *)
Definition quad_place (k : nat) (s t : R) : R * R :=
  match k with 0%nat => (s / 2, t / 2) | 1%nat => (1 - t / 2, s / 2) | 2%nat => (1 - s / 2, 1 - t / 2) | _ => (t / 2, 1 - s / 2) end.
(** Catmull-Clark: the faces and the edges at a vertex, and the mean of a list of numbers. *)
Definition faces_at (elem : list nat) (nq v : nat) : list nat := filter (fun q => existsb (Nat.eqb v) (elem_verts elem 4 q)) (seq 0 nq).
Definition edges_at (E : list (nat * nat)) (v : nat) : list (nat * nat) := filter (fun ab => (fst ab =? v)%nat || (snd ab =? v)%nat) E.
Definition total (l : list R) : R := fold_right Rplus 0 l.
Definition mean (l : list R) : R := total l / INR (length l).
(** The face point of quadrangle q and the middle of an edge, one coordinate. *)
Definition face_point (x : nat -> R) (elem : list nat) (q : nat) : R := mean (map x (elem_verts elem 4 q)).
Definition edge_middle (x : nat -> R) (ab : nat * nat) : R := mean [x (fst ab); x (snd ab)].
(** A vertex on the border: an end of an edge that belongs to one quadrangle only. *)
Definition border_vertex (elem : list nat) (nq : nat) (E : list (nat * nat)) (v : nat) : Prop :=
  exists ab, In ab (edges_at E v) /\ length (elems_with elem nq 4 (fst ab) (snd ab)) = 1%nat.
