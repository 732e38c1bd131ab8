(** Specification vocabulary for the collision of convex hulls in the plane. *)
From Coq Require Import List Reals.
Import ListNotations.
From Verif Require Import HullSpec.
Open Scope R_scope.

(** The convex hull of a list of points, and whether the hulls of two lists have a common point. *)
Definition hullof (l : list pnt) : pnt -> Prop := hull (fun x => In x l).
Definition collide (A B : list pnt) : Prop := exists x, hullof A x /\ hullof B x.

(** All points moved by t. *)
Definition move (t : pnt) (B : list pnt) : list pnt := map (fun b => (fst b + fst t, snd b + snd t)) B.
Definition length2 (t : pnt) : R := sqrt (fst t * fst t + snd t * snd t).

(** Moving B by t, of length r, is a shortest way to separate the sets up to the tolerance: no motion of length r or less
    separates them, and moving by r + tol in the same direction u does. *)
Definition shortest_separation (A B : list pnt) (tol : R) (t : pnt) : Prop :=
  exists u r, length2 u = 1 /\ t = (r * fst u, r * snd u) /\
    (forall s, length2 s <= r -> collide A (move s B)) /\
    ~ collide A (move ((r + tol) * fst u, (r + tol) * snd u) B).

(** A direction that is not zero in which no difference a - b goes further than x: x is on the boundary of the set of differences. *)
Definition outermost (A B : list pnt) (x : pnt) : Prop :=
  exists e : pnt, e <> (0, 0) /\ forall a b, In a A -> In b B ->
    fst e * (fst a - fst b) + snd e * (snd a - snd b) <= fst e * fst x + snd e * snd x.

(** Not all the points of both sets are on parallel lines: there are two differences of points of the same set that are not parallel. *)
Definition difference (A B : list pnt) (e : pnt) : Prop :=
  exists v w, (In v A /\ In w A \/ In v B /\ In w B) /\ e = (fst v - fst w, snd v - snd w).
Definition not_parallel (A B : list pnt) : Prop :=
  exists e f, difference A B e /\ difference A B f /\ fst e * snd f - snd e * fst f <> 0.
