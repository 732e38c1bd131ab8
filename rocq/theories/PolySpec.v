(** Specification for polygons: signed integrals over the enclosed region. *)
From Coq Require Import Reals List.
Import ListNotations.
From Verif Require Import BezSpec.
Open Scope R_scope.

(** The edges of a closed polygon. *)
Definition edges {A : Type} (l : list A) : list (A * A) := combine l (tl l ++ firstn 1 l).
Definition sum (l : list R) : R := fold_right Rplus 0 l.
Definition total {A : Type} (f : A -> A -> R) (l : list A) : R := sum (map (fun e => f (fst e) (snd e)) (edges l)).
(** v is the signed integral of f over the triangle o a b, counterclockwise positive, in the coordinates o + s ((1 - t) (a - o) + t (b - o)) with 0 <= s, t <= 1, whose Jacobian is s (a - o) x (b - o). *)
Definition triangle_integral (f : R -> R -> R) (o a b : R * R) (v : R) : Prop := exists g,
  (forall s, integral01 (fun t => f (fst o + s * ((1 - t) * (fst a - fst o) + t * (fst b - fst o))) (snd o + s * ((1 - t) * (snd a - snd o) + t * (snd b - snd o)))) (g s)) /\
  integral01 (fun s => g s * (s * ((fst a - fst o) * (snd b - snd o) - (snd a - snd o) * (fst b - fst o)))) v.
(** v is the signed integral of f over the region inside a polygon, as the sum over the triangles that its edges form with o. *)
Definition region_integral (f : R -> R -> R) (o : R * R) (l : list (R * R)) (v : R) : Prop := exists vs,
  Forall2 (fun e w => triangle_integral f o (fst e) (snd e) w) (edges l) vs /\ sum vs = v.
Definition dist (a b : R * R) : R := sqrt ((fst a - fst b) * (fst a - fst b) + (snd a - snd b) * (snd a - snd b)).
