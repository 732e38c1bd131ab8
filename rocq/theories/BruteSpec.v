(** Specification vocabulary for searches on meshes. *)
From Coq Require Import List Arith Bool ZArith Reals.
Import ListNotations.
From Verif Require Import QuatModel ProxSpec IsecSpec MeasSpec.
Open Scope R_scope.

(** The number of elements with m corners, the points of triangle t, of the mesh and of some of its triangles. *)
Definition count (m : nat) (elems : list nat) : nat := (length elems / m)%nat.
Definition tri_points (l : list R) (tri : list nat) (t : nat) : vec3 -> Prop := triangle (at_corner l 3 tri t 0) (at_corner l 3 tri t 1) (at_corner l 3 tri t 2).
Definition surface (l : list R) (tri : list nat) (x : vec3) : Prop := exists t, (t < count 3 tri)%nat /\ tri_points l tri t x.
Definition part (l : list R) (tri : list nat) (ts : list nat) (x : vec3) : Prop := exists t, In t ts /\ tri_points l tri t x.
(** The point of triangle t with the weights r0, r1 and 1 - r0 - r1, and weights of a point in the triangle. *)
Definition tri_point (l : list R) (tri : list nat) (p : nat * R * R) : vec3 :=
  let '(t, r0, r1) := p in comb r0 r1 (1 - r0 - r1) (at_corner l 3 tri t 0) (at_corner l 3 tri t 1) (at_corner l 3 tri t 2).
Definition weights (r0 r1 : R) : Prop := 0 <= r0 /\ 0 <= r1 /\ r0 + r1 <= 1.
(** A triangle that is not too small for the tolerances of the code. *)
Definition large3 (p q r : vec3) : Prop := / 10 ^ 10 < dist3 p q /\ / 10 ^ 10 < dist3 q r /\ / 10 ^ 10 < dist3 r p /\ 6 * / 10 ^ 10 < area2 p q r.
Definition large (l : list R) (tri : list nat) (t : nat) : Prop := large3 (at_corner l 3 tri t 0) (at_corner l 3 tri t 1) (at_corner l 3 tri t 2).

(** The line meets the plane of the triangle p q r, not parallel to it, in the point with the weights r0 and r1; the weights are not below -eps. *)
Definition hit (org dir : vec3) (eps : R) (p q r : vec3) (r0 r1 : R) : Prop :=
  inner dir (nrm p q r) <> 0 /\ line org dir (comb r0 r1 (1 - r0 - r1) p q r) /\ - eps <= r0 /\ - eps <= r1 /\ - eps <= 1 - r0 - r1.
Definition hit_tri (org dir : vec3) (eps : R) (l : list R) (tri : list nat) (p : nat * R * R) : Prop :=
  let '(t, r0, r1) := p in hit org dir eps (at_corner l 3 tri t 0) (at_corner l 3 tri t 1) (at_corner l 3 tri t 2) r0 r1.
(** The point at s times the direction from the start. *)
Definition along (org dir : vec3) (s : R) : vec3 := comb 1 s 0 org dir origin3.

(** The points of a height field with nx columns and the distance el of the grid; a cell (i, j) has two triangles, cut from (i, j) to (i + 1, j + 1). *)
Definition height_point (el : R) (nx : nat) (aH : list R) (i j : nat) : vec3 := V3 (INR i * el) (INR j * el) (nth (j * nx + i) aH 0).
Definition height_corner (el : R) (nx : nat) (aH : list R) (i j : nat) (second : bool) (k : nat) : vec3 :=
  match k with
  | 0%nat => height_point el nx aH i j
  | 1%nat => if second then height_point el nx aH (i + 1) (j + 1) else height_point el nx aH (i + 1) j
  | _ => if second then height_point el nx aH i (j + 1) else height_point el nx aH (i + 1) (j + 1)
  end.
Definition height_index (nx i j : nat) (second : bool) : nat := ((j * nx + i) * 2 + if second then 1 else 0)%nat.

(** The point with four weights, and its tetrahedron. *)
Definition comb4 (a b c d : R) (p q r s : vec3) : vec3 := comb 1 d 0 (comb a b c p q r) s origin3.
Definition tet_point (l : list R) (tet : list nat) (p : nat * R * R * R) : vec3 :=
  let '(t, r0, r1, r2) := p in comb4 r0 r1 r2 (1 - r0 - r1 - r2) (at_corner l 4 tet t 0) (at_corner l 4 tet t 1) (at_corner l 4 tet t 2) (at_corner l 4 tet t 3).
Definition tet_volume (l : list R) (tet : list nat) (t : nat) : R := volume6 (at_corner l 4 tet t 0) (at_corner l 4 tet t 1) (at_corner l 4 tet t 2) (at_corner l 4 tet t 3).
(** The weights are above -eps. *)
Definition nearly_in (eps : R) (p : nat * R * R * R) : Prop := let '(_, r0, r1, r2) := p in - eps < r0 /\ - eps < r1 /\ - eps < r2 /\ - eps < 1 - r0 - r1 - r2.
(** The point is nearly in tetrahedron t, which is not inverted. *)
Definition tet_has (l : list R) (tet : list nat) (eps : R) (q : vec3) (p : nat * R * R * R) : Prop := 0 < tet_volume l tet (fst (fst (fst p))) /\ tet_point l tet p = q /\ nearly_in eps p.
(** Six times the volume after corner k has been moved to q. *)
Definition moved_volume (l : list R) (tet : list nat) (q : vec3) (t k : nat) : R :=
  let c := fun i => if (i =? k)%nat then q else at_corner l 4 tet t i in volume6 (c 0%nat) (c 1%nat) (c 2%nat) (c 3%nat).
(** A walk of n steps from tetrahedron a to u for the point q: every step leaves a tetrahedron that does not have the point, to the neighbour
    beyond the face that is opposite to the corner with the least volume, or to the last corner if two volumes are equal and least. *)
Definition least (l : list R) (tet : list nat) (q : vec3) (t j : nat) : Prop := (j < 4)%nat /\ forall i, (i < 4)%nat -> i <> j -> moved_volume l tet q t j < moved_volume l tet q t i.
Inductive walk (l : list R) (tet : list nat) (rel : list Z) (eps : R) (q : vec3) (a : Z) : nat -> Z -> Prop :=
| walk_start : walk l tet rel eps q a 0 a
| walk_step : forall n t k, walk l tet rel eps q a n (Z.of_nat t) -> (t < count 4 tet)%nat -> (forall r0 r1 r2, ~ tet_has l tet eps q (t, r0, r1, r2)) ->
    least l tet q t k \/ k = 3%nat /\ (forall j, ~ least l tet q t j) ->
    walk l tet rel eps q a (S n) (nth (8 * t + 2 * k) rel (-1)%Z).
Definition rel_ok (tet : list nat) (rel : list Z) : Prop := length rel = (8 * count 4 tet)%nat /\ forall t k, (t < count 4 tet)%nat -> (k < 4)%nat -> (-1 <= nth (8 * t + 2 * k) rel (-1) < Z.of_nat (count 4 tet))%Z.
(** Face f of tetrahedron t is opposite to corner f. *)
Definition face_corner (tet face : list nat) (i k : nat) : nat :=
  let t := nth (2 * i) face 0%nat in let f := nth (2 * i + 1) face 0%nat in
  nth (4 * t + nth k (nth f [[1; 2; 3]; [0; 3; 2]; [0; 1; 3]; [0; 2; 1]] []) 0)%nat tet 0%nat.
Definition face_point (l : list R) (tet face : list nat) (i k : nat) : vec3 := pnt l (face_corner tet face i k).
Definition face_ok (tet face : list nat) : Prop := forall i, (i < count 2 face)%nat -> (nth (2 * i) face 0 < count 4 tet)%nat /\ (nth (2 * i + 1) face 0 < 4)%nat.
Definition face_points (l : list R) (tet face : list nat) (i : nat) : vec3 -> Prop := triangle (face_point l tet face i 0) (face_point l tet face i 1) (face_point l tet face i 2).
Definition boundary (l : list R) (tet face : list nat) (x : vec3) : Prop := exists i, (i < count 2 face)%nat /\ face_points l tet face i x.

(** Triangle u is a neighbour of triangle t; the triangles that a chain of near neighbours links to t0. *)
Definition next_to (adj : list (option nat)) (t u : nat) : Prop := exists e, (e < 3)%nat /\ nth (3 * t + e) adj None = Some u.
Definition adj_ok (tri : list nat) (adj : list (option nat)) : Prop := length adj = (3 * count 3 tri)%nat /\ forall u, In (Some u) adj -> (u < count 3 tri)%nat.
Inductive linked (near : nat -> Prop) (adj : list (option nat)) (t0 : nat) : nat -> Prop :=
| linked_start : near t0 -> linked near adj t0 t0
| linked_next : forall t u, linked near adj t0 t -> next_to adj t u -> near u -> linked near adj t0 u.
(** A triangle is near to p if it has a point within the distance rad.  The code is exact to a tolerance for p off the plane of the triangle; for p in
    the plane it looks only at the edges of the triangle. *)
Definition within (S : vec3 -> Prop) (p : vec3) (rad : R) : Prop := exists y, S y /\ dist3 y p <= rad.
Definition near_spec (p : vec3) (rad : R) (l : list R) (tri : list nat) (near : nat -> Prop) : Prop := forall t, (t < count 3 tri)%nat ->
  let q0 := at_corner l 3 tri t 0 in let q1 := at_corner l 3 tri t 1 in let q2 := at_corner l 3 tri t 2 in
  (6 * / 10 ^ 10 < Rabs (volume6 p q0 q1 q2) -> (within (triangle q0 q1 q2) p rad -> near t) /\
    (near t -> within (fun y => exists a b, - / 10 ^ 4 < a /\ - / 10 ^ 4 < b /\ - / 10 ^ 4 < 1 - a - b /\ y = comb a b (1 - a - b) q0 q1 q2) p rad)) /\
  (Rabs (volume6 p q0 q1 q2) <= 6 * / 10 ^ 10 -> (near t <-> within (edges q0 q1 q2) p rad)).
