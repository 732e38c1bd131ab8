(** Specification vocabulary for the convex hull of points in the plane. *)
From Coq Require Import List Arith Bool Reals Sorting.Sorted Sorting.Permutation.
Import ListNotations.
Open Scope R_scope.

Notation pnt := (R * R)%type.

(** Twice the signed area of the triangle a, b, c: positive if c is on the left of the line from a to b. *)
Definition orient (a b c : pnt) : R := (fst b - fst a) * (snd c - snd a) - (snd b - snd a) * (fst c - fst a).
Definition P (points : list pnt) (i : nat) : pnt := nth i points (0, 0).

(** The smallest convex set that contains the given points. *)
Inductive hull (S : pnt -> Prop) : pnt -> Prop :=
| hull_in : forall x, S x -> hull S x
| hull_seg : forall x y t, hull S x -> hull S y -> 0 <= t <= 1 -> hull S ((1 - t) * fst x + t * fst y, (1 - t) * snd x + t * snd y).

(** Two or three indices that follow each other in a list. *)
Definition next2 (l : list nat) (i j : nat) : Prop := exists u v, l = u ++ i :: j :: v.
Definition next3 (l : list nat) (i j k : nat) : Prop := exists u v, l = u ++ i :: j :: k :: v.

(** The hull of the points as a closed counterclockwise polygon: it starts and ends with the vertex [o] and names no vertex twice otherwise; it turns left at every vertex; no point
    is on the right of an edge; and every point is in the hull of the vertices. *)
Definition is_hull (points : list pnt) (o : nat) (res : list nat) : Prop :=
  exists f mid l, res = o :: f :: mid ++ [l; o] /\ NoDup (o :: f :: mid ++ [l]) /\
    (forall i, In i res -> (i < length points)%nat) /\
    (forall i j k, next3 res i j k -> 0 < orient (P points i) (P points j) (P points k)) /\
    0 < orient (P points l) (P points o) (P points f) /\
    (forall i j k, next2 res i j -> (k < length points)%nat -> 0 <= orient (P points i) (P points j) (P points k)) /\
    (forall k, (k < length points)%nat -> hull (fun x => exists i, In i res /\ x = P points i) (P points k)).

(** The point [o] is the lowest one, the leftmost among the lowest, and no other point is at the same place. *)
Definition is_lowest (points : list pnt) (o : nat) : Prop :=
  (o < length points)%nat /\ forall k, (k < length points)%nat -> k <> o ->
    snd (P points o) < snd (P points k) \/ (snd (P points o) = snd (P points k) /\ fst (P points o) < fst (P points k)).

(** The cosine of the direction from o to i. *)
Definition direction (points : list pnt) (o i : nat) : R :=
  (fst (P points i) - fst (P points o)) / sqrt ((fst (P points i) - fst (P points o)) * (fst (P points i) - fst (P points o)) + (snd (P points i) - snd (P points o)) * (snd (P points i) - snd (P points o))).

(** Different directions differ by more than the tolerance [eps]. *)
Definition separated (eps : R) (points : list pnt) (o : nat) : Prop :=
  forall i j, (i < length points)%nat -> (j < length points)%nat -> i <> o -> j <> o -> orient (P points o) (P points i) (P points j) <> 0 -> eps < Rabs (direction points o i - direction points o j).

(** Two points in the same direction from [o] are not in the first and not in the last direction: there is a point strictly on the right and one strictly on the left. *)
Definition single_extremes (points : list pnt) (o : nat) : Prop :=
  forall i j, (i < length points)%nat -> (j < length points)%nat -> i <> o -> j <> o -> i <> j -> orient (P points o) (P points i) (P points j) = 0 ->
    (exists k, (k < length points)%nat /\ orient (P points o) (P points i) (P points k) < 0) /\ (exists k, (k < length points)%nat /\ 0 < orient (P points o) (P points i) (P points k)).

(** std::sort: for a strict weak ordering of the elements, a sorted permutation. *)
Definition strict_weak {A} (c : A -> A -> bool) (l : list A) : Prop :=
  (forall a, In a l -> c a a = false) /\
  (forall a b d, In a l -> In b l -> In d l -> c a b = true -> c b d = true -> c a d = true) /\
  (forall a b d, In a l -> In b l -> In d l -> c a b = false -> c b a = false -> c b d = false -> c d b = false -> c a d = false /\ c d a = false).
Definition sorts {A} (srt : (A -> A -> bool) -> list A -> list A) : Prop :=
  forall c l, strict_weak c l -> Permutation l (srt c l) /\ StronglySorted (fun a b => c b a = false) (srt c l).
