(** Specification vocabulary for 4x4 matrices. *)
From Coq Require Import List Arith Bool ZArith Reals.
Import ListNotations.
From Verif Require Import QuatModel ProxModel ProxSpec MeasSpec.
Open Scope R_scope.

(** Entry (i, j) of the n x n matrix stored row by row in a list, and B is the inverse of A. *)
Definition ent (n : nat) (A : list R) (i j : nat) : R := nth (i * n + j) A 0.
Definition times_id (n : nat) (A B : list R) : Prop :=
  forall i j, (i < n)%nat -> (j < n)%nat -> sum n (fun k => ent n A i k * ent n B k j) = if (i =? j)%nat then 1 else 0.
Definition inverse_of (n : nat) (A B : list R) : Prop := length B = (n * n)%nat /\ times_id n A B /\ times_id n B A.
Definition invertible (n : nat) (A : list R) : Prop := exists B, inverse_of n A B.

(** The image of a point by a 4x4 matrix, as a map of projective space: the matrix times (x, y, z, 1) is w times (x', y', z', 1) with w not zero. *)
Definition row4 (A : list R) (i : nat) (p : vec3) : R := ent 4 A i 0 * vx p + ent 4 A i 1 * vy p + ent 4 A i 2 * vz p + ent 4 A i 3.
Definition maps (A : list R) (p p' : vec3) : Prop :=
  exists w, w <> 0 /\ row4 A 0 p = w * vx p' /\ row4 A 1 p = w * vy p' /\ row4 A 2 p = w * vz p' /\ row4 A 3 p = w.
(** The matrix is that of an affine map f: the last row is (0, 0, 0, 1), and points go where f sends them. *)
Definition is_affine (A : list R) (f : vec3 -> vec3) : Prop :=
  length A = 16%nat /\ (forall p, row4 A 3 p = 1) /\ forall p, f p = V3 (row4 A 0 p) (row4 A 1 p) (row4 A 2 p).
Definition add3 (u v : vec3) : vec3 := comb 1 1 0 u v origin3.
Definition sc3 (s : R) (v : vec3) : vec3 := comb s 0 0 v origin3 origin3.
(** A motion that keeps distances and the orientation: it keeps scalar products and vector products of the differences of points. *)
Definition rigid (f : vec3 -> vec3) : Prop :=
  (forall p q r, dot3 (sub3 (f p) (f r)) (sub3 (f q) (f r)) = dot3 (sub3 p r) (sub3 q r)) /\
  (forall p q r s, sub3 p s = cross3 (sub3 q s) (sub3 r s) -> sub3 (f p) (f s) = cross3 (sub3 (f q) (f s)) (sub3 (f r) (f s))).
(** The rotation by an angle t about a line through the origin in the direction of the unit vector n: what is along n stays, what is across n turns by t. *)
Definition turns (n : vec3) (t : R) (f : vec3 -> vec3) : Prop :=
  dot3 n n = 1 /\ (forall s, f (sc3 s n) = sc3 s n) /\ (forall p, dot3 n p = 0 -> f p = comb (cos t) (sin t) 0 p (cross3 n p) origin3) /\
  (forall p q, f (add3 p q) = add3 (f p) (f q)).
(** A 3x3 matrix times a vector. *)
Definition app3 (K : list R) (p : vec3) : vec3 :=
  V3 (ent 3 K 0 0 * vx p + ent 3 K 0 1 * vy p + ent 3 K 0 2 * vz p) (ent 3 K 1 0 * vx p + ent 3 K 1 1 * vy p + ent 3 K 1 2 * vz p) (ent 3 K 2 0 * vx p + ent 3 K 2 1 * vy p + ent 3 K 2 2 * vz p).
