(** Specification vocabulary for the editing of meshes. *)
From Coq Require Import List Arith Bool ZArith Reals.
Import ListNotations.
From Verif Require Import QuatModel QuatSpec ProxSpec MeasSpec.
Open Scope R_scope.

(** Coordinate k of point i of an array with m coordinates per point, and points of an array of the plane. *)
Definition coord (m : nat) (a : list R) (i k : nat) : R := nth (m * i + k) a 0.
Definition pnt2 (a : list R) (i : nat) : R * R := (coord 2 a i 0, coord 2 a i 1).
Definition dist2 (p q : R * R) : R := sqrt ((fst p - fst q) ^ 2 + (snd p - snd q) ^ 2).

(** Points kept: (a1, e1) is the mesh (a0, e0) with every point that no element uses removed and the others in the same order. *)
Definition same_mesh_without_unused (m : nat) (a0 : list R) (e0 : list nat) (a1 : list R) (e1 : list nat) : Prop :=
  length e1 = length e0 /\
  (forall j k, (j < length e0)%nat -> (k < m)%nat -> coord m a1 (nth j e1 0%nat) k = coord m a0 (nth j e0 0%nat) k) /\
  (forall j j', (j < length e0)%nat -> (j' < length e0)%nat -> (nth j e0 0 < nth j' e0 0)%nat -> (nth j e1 0 < nth j' e1 0)%nat) /\
  (forall j j', (j < length e0)%nat -> (j' < length e0)%nat -> nth j e0 0%nat = nth j' e0 0%nat -> nth j e1 0%nat = nth j' e1 0%nat) /\
  exists n, length a1 = (n * m)%nat /\ (forall i, In i e1 <-> (i < n)%nat).

(** Aspect of a triangle: the square of the mean length of its sides over its area. *)
Definition aspect (p q r : R * R) (area : R) : R := ((dist2 p q + dist2 q r + dist2 r p) / 3) ^ 2 / area.

(** Lists of oriented triangles with the same sum: every triangle occurs as often in one list and, reversed, in the other, as in the other and,
    reversed, in the one. *)
Definition reversed (t : nat * nat * nat) : nat * nat * nat := let '(a, b, c) := t in (a, c, b).
Definition same_chain (L M : list (nat * nat * nat)) : Prop :=
  forall t, (times t L + times (reversed t) M = times t M + times (reversed t) L)%nat.
(** The wall over the edge from a to b between layers l and l + 1 of n points: two triangles, split from the upper end with the larger number. *)
Definition wall (n l : nat) (e : nat * nat) : list (nat * nat * nat) :=
  let '(a, b) := e in
  let a0 := (l * n + a)%nat in let b0 := (l * n + b)%nat in let a1 := ((l + 1) * n + a)%nat in let b1 := ((l + 1) * n + b)%nat in
  if (b <? a)%nat then [(a0, b0, a1); (b0, b1, a1)] else [(a0, b0, b1); (a0, b1, a1)].
(** The directed edges of triangles; the triangles of layer l; the border of a set of triangles: a list of edges such that every directed edge occurs
    as often in the triangles and, reversed, in the border, as in the border and, reversed, in the triangles. *)
Definition edges_of (T : list (nat * nat * nat)) : list (nat * nat) := flat_map (fun t => let '(a, b, c) := t in [(a, b); (b, c); (c, a)]) T.
Definition in_layer (n l : nat) (t : nat * nat * nat) : nat * nat * nat := let '(a, b, c) := t in (l * n + a, l * n + b, l * n + c)%nat.
Definition edge_times (e : nat * nat) (E : list (nat * nat)) : nat := length (filter (fun x => (fst x =? fst e) && (snd x =? snd e))%nat E).
Definition border (T : list (nat * nat * nat)) (E : list (nat * nat)) : Prop :=
  forall a b, (edge_times (a, b) (edges_of T) + edge_times (b, a) E = edge_times (a, b) E + edge_times (b, a) (edges_of T))%nat.

(** A unit vector orthogonal to a triangle, on the side from which the corners are seen counterclockwise. *)
Definition unit_normal (p q r u : vec3) : Prop :=
  vdot u (vadd q (vscale (-1) p)) = 0 /\ vdot u (vadd r (vscale (-1) p)) = 0 /\ vdot u u = 1 /\ 0 < vdot u (vcross (vadd q (vscale (-1) p)) (vadd r (vscale (-1) p))).
(** d is the direction of v. *)
Definition direction (v d : vec3) : Prop := vdot d d = 1 /\ exists s, 0 < s /\ v = vscale s d.
(** The sum of the vectors that elements with m corners give to point i: corner k of element t gives u t k. *)
Definition gathered (m : nat) (elem : list nat) (n : nat) (u : nat -> nat -> vec3) (i : nat) : vec3 :=
  let part := fun (f : vec3 -> R) => sum n (fun t => sum m (fun k => if (cor m elem t k =? i)%nat then f (u t k) else 0)) in V3 (part vx) (part vy) (part vz).

(** The arrays while points are replaced one after the other: the first i points are from b, the others from a. *)
Definition half_done (a b : list R) (i : nat) : list R := firstn (3 * i) b ++ skipn (3 * i) a.
(** Smoothing: every point of b is the centre of the triangles around it, weighted with their areas, when the points before it have been moved. *)
Definition smoothed (tri ind lst : list nat) (a b : list R) (n : nat) : Prop :=
  forall i, (i < n)%nat -> let lo := nth i ind 0%nat in
    centre_of (nth (i + 1) ind 0 - lo)%nat (fun j => tri_area (half_done a b i) tri (nth (lo + j) lst 0%nat)) (fun j => tri_mid (half_done a b i) tri (nth (lo + j) lst 0%nat)) (pnt b i).
(** The lists of the triangles around the points have valid numbers. *)
Definition lists_ok (n : nat) (tri ind lst : list nat) : Prop := (n < length ind)%nat /\ (forall i, In i ind -> (i <= length lst)%nat) /\ (forall t, In t lst -> (t < length tri / 3)%nat).

(** The mean of a ratio and its inverse. *)
Definition mean_ratio (a b : R) : R := (a / b + b / a) / 2.
