(** Vocabulary for Delaunay meshes: orientation, area and the Delaunay condition of a dynamic triangle mesh in the plane. *)
From Coq Require Import List Arith Reals.
Import ListNotations.
From Verif Require Import Imp PolyModel DtriModel DtriSpec DelaModel.
Open Scope R_scope.

Definition pos2 (xy : list pt) (p : nat) : pt := nth p xy (0, 0).
(** A corner of some triangle. *)
Definition used (m : list dtri) (q : nat) : Prop := exists t, (t < length m)%nat /\ corner_of m t q.
(** Signed area of triangle t. *)
Definition tri_area (xy : list pt) (m : list dtri) (t : nat) : R :=
  Area_Tri2 (pos2 xy (V m t 0)) (pos2 xy (V m t 1)) (pos2 xy (V m t 2)).
(** Every triangle is counter-clockwise. *)
Definition positive (xy : list pt) (m : list dtri) : Prop := forall t, (t < length m)%nat -> 0 < tri_area xy m t.
Definition total_area (xy : list pt) (m : list dtri) : R := fold_right Rplus 0 (map (tri_area xy m) (seq 0 (length m))).
(** d is strictly inside the circle through a, b, c. *)
Definition in_circle (a b c d : pt) : Prop := exists o, SquareDistance o b = SquareDistance o a /\ SquareDistance o c = SquareDistance o a /\
  SquareDistance o d < SquareDistance o a.
(** The edge opposite to corner i of t is not to be flipped: it is a boundary edge, or the far corner of the triangle behind it
    is not found inside the circle of t. *)
Definition edge_fine (xy : list pt) (m : list dtri) (c : nat * nat) : Prop :=
  forall u k, twin m (fst c) (snd c) u k ->
    DetDelaunay (pos2 xy (V m (fst c) 0)) (pos2 xy (V m (fst c) 1)) (pos2 xy (V m (fst c) 2)) (pos2 xy (V m u k)) <> 0%nat.

(** The same in terms of circles: if t is not too thin, no circle through its three corners has the far corner of the triangle
    behind the edge inside, up to the relative tolerance of the test. *)
Definition delaunay_edge (xy : list pt) (m : list dtri) (c : nat * nat) : Prop :=
  forall u k, twin m (fst c) (snd c) u k -> / 10 ^ 10 <= tri_area xy m (fst c) ->
  forall o, (forall i j, (i < 3)%nat -> (j < 3)%nat -> SquareDistance o (pos2 xy (V m (fst c) i)) = SquareDistance o (pos2 xy (V m (fst c) j))) ->
    (1 - / 10 ^ 20) * SquareDistance o (pos2 xy (V m (fst c) 0)) <= SquareDistance o (pos2 xy (V m u k)).
(** Point q lies in triangle t, with area more than mn to each of its edges. *)
Definition inside_by (xy : list pt) (m : list dtri) (mn : R) (q : pt) (t : nat) : Prop :=
  forall e, (e < 3)%nat -> mn < Area_Tri2 q (pos2 xy (V m t (nx e))) (pos2 xy (V m t (pv e))).
