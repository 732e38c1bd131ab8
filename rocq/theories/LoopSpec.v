(** Specification for loops stored in one array with an index array (JagSpec.jagged). *)
From Coq Require Import Reals List Permutation.
Import ListNotations.
From Verif Require Import PolySpec.
Open Scope R_scope.

(** The points of an array x0 y0 x1 y1 ... *)
Fixpoint points (v : list R) : list (R * R) := match v with x :: y :: r => (x, y) :: points r | _ => [] end.
(** Twice the signed area of a polygon. *)
Definition area2 (l : list (R * R)) : R := total (fun a b => fst a * snd b - fst b * snd a) l.
(** The point a and the m points that cut the segment from a to b into m + 1 equal parts. *)
Definition subdivide (m : nat) (e : (R * R) * (R * R)) : list (R * R) :=
  let '(a, b) := e in
  a :: map (fun j => ((1 - INR j / INR (m + 1)) * fst a + INR j / INR (m + 1) * fst b, (1 - INR j / INR (m + 1)) * snd a + INR j / INR (m + 1) * snd b)) (seq 1 m).
(** q lies on the segment from a to b. *)
Definition on_segment (q a b : R * R) : Prop := exists u, 0 <= u <= 1 /\ fst q = (1 - u) * fst a + u * fst b /\ snd q = (1 - u) * snd a + u * snd b.
(** Two segments have a common point. *)
Definition meets (e f : (R * R) * (R * R)) : Prop := exists q, on_segment q (fst e) (snd e) /\ on_segment q (fst f) (snd f).
(** The i-th edge of a closed polygon, from vertex i to the next one. *)
Definition edge_at (p : list (R * R)) (i : nat) : (R * R) * (R * R) := (nth i p (0, 0), nth (Nat.modulo (i + 1) (length p)) p (0, 0)).
(** The i-th and the j-th edge of a polygon with n vertices are equal or neighbours. *)
Definition touching (n i j : nat) : Prop := i = j \/ Nat.modulo (i + 1) n = j \/ Nat.modulo (j + 1) n = i.
