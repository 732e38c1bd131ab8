(** Specification vocabulary for position based dynamics. *)
From Coq Require Import List Arith Bool Reals.
Import ListNotations.
From Verif Require Import MeasSpec EnerSpec.
Open Scope R_scope.

(** Coordinate d of point j of an array with three coordinates per point, and the sum of a coordinate over all points. *)
Definition coord (a : list R) (j d : nat) : R := nth (3 * j + d) a 0.
Definition total (a : list R) (d : nat) : R := sum (length a / 3) (fun j => coord a j d).
(** The displacement of the points aIP between two arrays. *)
Definition moved (a a' : list R) (aIP : list nat) : nat -> nat -> R := fun i d => coord a' (nth i aIP 0%nat) d - coord a (nth i aIP 0%nat) d.
(** Twice the kinetic energy of points with masses m and velocities v. *)
Definition weighted (n : nat) (m : nat -> R) (v : nat -> nat -> R) : R := sum n (fun i => m i * dot (v i) (v i)).
(** Three gradients of n points without linear relation. *)
Definition independent (n : nat) (g : nat -> nat -> nat -> R) : Prop :=
  forall w : nat -> R, (forall i d, (i < n)%nat -> (d < 3)%nat -> sum 3 (fun k => w k * g k i d) = 0) -> forall k, (k < 3)%nat -> w k = 0.
(** A point i of an array is present. *)
Definition has (a : list R) (i : nat) : Prop := (3 * i + 2 < length a)%nat.

(** Points of the plane: coordinates of point i, their mean over a list of indices, and the sum of the squares of the distances of the points to the
    points of the rest shape, both moved with their mean to the origin, after the rest shape has been turned by the angle with cosine c and sine s. *)
Definition px (a : list R) (i : nat) : R := nth (2 * i) a 0.
Definition py (a : list R) (i : nat) : R := nth (2 * i + 1) a 0.
Definition lsum (l : list nat) (f : nat -> R) : R := fold_right (fun i x => f i + x) 0 l.
Definition mean (l : list nat) (f : nat -> R) : R := lsum l f / INR (length l).
Definition off (l : list nat) (f : nat -> R) (i : nat) : R := f i - mean l f.
Definition misfit (l : list nat) (t q : list R) (c s : R) : R :=
  lsum l (fun i => (off l (px t) i - (c * off l (px q) i - s * off l (py q) i)) ^ 2 + (off l (py t) i - (s * off l (px q) i + c * off l (py q) i)) ^ 2).
(** The matrix of second moments of the points and of the rest shape. *)
Definition moment (l : list nat) (f g : nat -> R) : R := lsum l (fun i => off l f i * off l g i).

(** Squared distances of two points in space and in the plane, and twice the signed area of a triangle in the plane. *)
Definition sq3 (a : list R) (i j : nat) : R := sum 3 (fun d => (coord a i d - coord a j d) ^ 2).
Definition sq2 (v : list (R * R)) (i j : nat) : R := (fst (nth i v (0, 0)) - fst (nth j v (0, 0))) ^ 2 + (snd (nth i v (0, 0)) - snd (nth j v (0, 0))) ^ 2.
Definition turn2 (v : list (R * R)) (i j k : nat) : R :=
  (fst (nth j v (0, 0)) - fst (nth i v (0, 0))) * (snd (nth k v (0, 0)) - snd (nth i v (0, 0))) - (fst (nth k v (0, 0)) - fst (nth i v (0, 0))) * (snd (nth j v (0, 0)) - snd (nth i v (0, 0))).
(** The distance of two points of an array. *)
Definition gap (a : list R) (i j : nat) : R := sqrt (sq3 a i j).
(** As many coordinates as before, and the same sums of the positions. *)
Definition kept (a a' : list R) : Prop := length a' = length a /\ forall d, (d < 3)%nat -> total a' d = total a d.
(** A triangle of an array and of a rest shape that is not too small. *)
Definition tri_rest (a : list R) (v : list (R * R)) (i0 i1 i2 : nat) : Prop :=
  has a i0 /\ has a i1 /\ has a i2 /\ (i0 < length v)%nat /\ (i1 < length v)%nat /\ (i2 < length v)%nat /\ tiny < Rabs (turn2 v i0 i1 i2).
(** A point with a flag. *)
Definition fixed (flag : list nat) (i : nat) : Prop := nth i flag 0%nat <> 0%nat.
(** When a matrix ((m0, m1), (m2, m3)) is far enough from the cases that RotationalComponentOfMatrix2 treats in another way: it keeps the orientation,
    and its columns are not perpendicular or the second one is longer. *)
Definition size4 (m0 m1 m2 m3 : R) : R := Rabs m0 + Rabs m1 + Rabs m2 + Rabs m3.
Definition regular (m0 m1 m2 m3 : R) : Prop :=
  let e := / 10000000000 in let s := size4 m0 m1 m2 m3 in e <= s /\ e * s ^ 2 <= m0 * m3 - m1 * m2 /\
  (e * s ^ 2 < Rabs (m0 * m1 + m2 * m3) \/ m0 ^ 2 + m2 ^ 2 + e * s ^ 2 < m1 ^ 2 + m3 ^ 2).
(** A point of the plane is present in an array. *)
Definition has2 (a : list R) (i : nat) : Prop := (2 * i + 1 < length a)%nat.
