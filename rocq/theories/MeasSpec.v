(** Specification vocabulary for the measures of meshes. *)
From Coq Require Import List Arith Bool ZArith Reals.
Import ListNotations.
From Verif Require Import QuatModel ProxModel ProxSpec.
Open Scope R_scope.

(** Point i of an array of coordinates, corner k of element e of an array of elements with m corners, and valid indices. *)
Definition pnt (xyz : list R) (i : nat) : vec3 := V3 (nth (3 * i) xyz 0) (nth (3 * i + 1) xyz 0) (nth (3 * i + 2) xyz 0).
Definition cor (m : nat) (elems : list nat) (e k : nat) : nat := nth (m * e + k) elems 0%nat.
Definition valid (elems : list nat) (xyz : list R) : Prop := forall i, In i elems -> (3 * i + 2 < length xyz)%nat.
Definition at_corner (xyz : list R) (m : nat) (elems : list nat) (e k : nat) : vec3 := pnt xyz (cor m elems e k).

(** A finite sum of numbers, and of points with weights. *)
Fixpoint sum (n : nat) (f : nat -> R) : R := match n with O => 0 | S k => sum k f + f k end.
Definition wsum (n : nat) (w : nat -> R) (p : nat -> vec3) : vec3 := V3 (sum n (fun i => w i * vx (p i))) (sum n (fun i => w i * vy (p i))) (sum n (fun i => w i * vz (p i))).
(** The centre c of points p with weights w: total weight times c is the weighted sum of the points, and the total is not zero. *)
Definition centre_of (n : nat) (w : nat -> R) (p : nat -> vec3) (c : vec3) : Prop := sum n w <> 0 /\ comb (sum n w) 0 0 c origin3 origin3 = wsum n w p.

(** lo and hi are the corners of the smallest box with sides along the axes around the points of a set. *)
Definition box_of (S : vec3 -> Prop) (lo hi : vec3) : Prop :=
  (forall p, S p -> vx lo <= vx p <= vx hi /\ vy lo <= vy p <= vy hi /\ vz lo <= vz p <= vz hi) /\
  (exists p, S p /\ vx p = vx lo) /\ (exists p, S p /\ vy p = vy lo) /\ (exists p, S p /\ vz p = vz lo) /\
  (exists p, S p /\ vx p = vx hi) /\ (exists p, S p /\ vy p = vy hi) /\ (exists p, S p /\ vz p = vz hi).
Definition inside (lo hi p : vec3) : Prop := vx lo <= vx p <= vx hi /\ vy lo <= vy p <= vy hi /\ vz lo <= vz p <= vz hi.
(** The same box by its centre and widths. *)
Definition box_of_cw (S : vec3 -> Prop) (c w : vec3) : Prop :=
  box_of S (V3 (vx c - vx w / 2) (vy c - vy w / 2) (vz c - vz w / 2)) (V3 (vx c + vx w / 2) (vy c + vy w / 2) (vz c + vz w / 2)).

(** Middle of the corners of an element. *)
Definition mid2 (p q : vec3) : vec3 := comb (1/2) (1/2) 0 p q origin3.
Definition mid3 (p q r : vec3) : vec3 := comb (1/3) (1/3) (1/3) p q r.
Definition mid4 (p q r s : vec3) : vec3 := comb 1 (1/4) 0 (comb (1/4) (1/4) (1/4) p q r) s origin3.
(** The signed volume of a tetrahedron. *)
Definition volume (p q r s : vec3) : R := volume6 p q r s / 6.

(** The number of times the directed edge from a to b is in the triangles, and a closed surface: every edge occurs as often in one direction as in
    the other. *)
Fixpoint directed (tri : list nat) (a b : nat) : nat :=
  match tri with i :: j :: k :: rest => ((if (i =? a) && (j =? b) then 1 else 0) + (if (j =? a) && (k =? b) then 1 else 0) + (if (k =? a) && (i =? b) then 1 else 0) + directed rest a b)%nat | _ => 0%nat end.
Definition closed (tri : list nat) : Prop := forall a b, directed tri a b = directed tri b a.

(** The points of an array, and the corners of the elements of a group: elements with m corners, and elements given by ranges of a list. *)
Definition points (l : list R) (q : vec3) : Prop := exists i, (i < length l / 3)%nat /\ q = pnt l i.
Definition in_group (m : nat) (l : list R) (elem : list nat) (g : Z) (grp : list Z) (q : vec3) : Prop :=
  exists e k, (e < length grp)%nat /\ nth e grp 0%Z = g /\ (k < m)%nat /\ q = at_corner l m elem e k.
Definition in_group_jag (l : list R) (ind elem : list nat) (g : Z) (grp : list Z) (q : vec3) : Prop :=
  exists e i, (e < length grp)%nat /\ nth e grp 0%Z = g /\ (nth e ind 0 <= i < nth (e + 1) ind 0)%nat /\ q = pnt l (nth i elem 0%nat).

(** Area and middle of a triangle, also of the chosen ones only, of a tetrahedron, and of a segment. *)
Definition tri_area (l : list R) (tri : list nat) (t : nat) : R := area2 (at_corner l 3 tri t 0) (at_corner l 3 tri t 1) (at_corner l 3 tri t 2) / 2.
Definition tri_mid (l : list R) (tri : list nat) (t : nat) : vec3 := mid3 (at_corner l 3 tri t 0) (at_corner l 3 tri t 1) (at_corner l 3 tri t 2).
Definition chosen_area (l : list R) (tri : list nat) (ch : nat -> bool) (t : nat) : R := if ch t then tri_area l tri t else 0.
Definition tet_vol (l : list R) (tet : list nat) (t : nat) : R := volume (at_corner l 4 tet t 0) (at_corner l 4 tet t 1) (at_corner l 4 tet t 2) (at_corner l 4 tet t 3).
Definition tet_mid (l : list R) (tet : list nat) (t : nat) : vec3 := mid4 (at_corner l 4 tet t 0) (at_corner l 4 tet t 1) (at_corner l 4 tet t 2) (at_corner l 4 tet t 3).
Definition seg_len (l : list R) (line : list nat) (t : nat) : R := dist3 (at_corner l 2 line t 0) (at_corner l 2 line t 1).
Definition seg_mid (l : list R) (line : list nat) (t : nat) : vec3 := mid2 (at_corner l 2 line t 0) (at_corner l 2 line t 1).

(** The tetrahedron of the origin and a triangle: signed volume and middle. *)
Definition solid_w (l : list R) (tri : list nat) (t : nat) : R := volume origin3 (at_corner l 3 tri t 0) (at_corner l 3 tri t 1) (at_corner l 3 tri t 2).
Definition solid_p (l : list R) (tri : list nat) (t : nat) : vec3 := mid4 origin3 (at_corner l 3 tri t 0) (at_corner l 3 tri t 1) (at_corner l 3 tri t 2).

(** The sum of a list; what an element with m corners that gives x to each of its corners gives to point i; and masses: every element
    gives an equal part of its weight to each of its corners, and nothing is lost. *)
Definition total (m : list R) : R := fold_right Rplus 0 m.
Definition share (m : nat) (elem : list nat) (i t : nat) (x : R) : R := sum m (fun k => if (cor m elem t k =? i)%nat then x else 0).
Definition masses (k np : nat) (elem : list nat) (w : nat -> R) (n : nat) (m : list R) : Prop :=
  length m = np /\ (forall i, nth i m 0 = sum n (fun t => share k elem i t (w t / INR k))) /\ total m = sum n w.

(** The signed area of triangle t in the plane. *)
Definition tri_area2 (xy : list R) (tri : list nat) (t : nat) : R :=
  let x := fun k => nth (2 * cor 3 tri t k) xy 0 in let y := fun k => nth (2 * cor 3 tri t k + 1) xy 0 in
  ((x 1%nat - x 0%nat) * (y 2%nat - y 0%nat) - (x 2%nat - x 0%nat) * (y 1%nat - y 0%nat)) / 2.

(** The oriented faces of tetrahedra, outwards for positive volumes; the number of triangles that are a rotation of a given one; the triangles of a
    surface are the boundary of the tetrahedra: every oriented triangle is as often in the surface and, reversed, in the faces, as in the faces and,
    reversed, in the surface. *)
Fixpoint tris (tri : list nat) : list (nat * nat * nat) := match tri with i :: j :: k :: rest => (i, j, k) :: tris rest | _ => [] end.
Fixpoint faces (tet : list nat) : list (nat * nat * nat) :=
  match tet with i :: j :: k :: l :: rest => (j, k, l) :: (i, l, k) :: (i, j, l) :: (i, k, j) :: faces rest | _ => [] end.
Definition rotation (s t : nat * nat * nat) : bool :=
  let '(a, b, c) := s in let '(i, j, k) := t in
  ((i =? a) && (j =? b) && (k =? c)) || ((i =? b) && (j =? c) && (k =? a)) || ((i =? c) && (j =? a) && (k =? b)).
Definition times (t : nat * nat * nat) (L : list (nat * nat * nat)) : nat := length (filter (rotation t) L).
Definition boundary (tri tet : list nat) : Prop :=
  forall a b c, (times (a, b, c) (tris tri) + times (a, c, b) (faces tet) = times (a, b, c) (faces tet) + times (a, c, b) (tris tri))%nat.
