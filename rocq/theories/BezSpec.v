(** Specification for parametric curves. *)
From Coq Require Import Reals List.
Import ListNotations.
Open Scope R_scope.

(** The Bernstein form of a curve of degree 2 and 3 by repeated linear interpolation (de Casteljau). *)
Definition lerp (t a b : R) : R := a + t * (b - a).
Definition casteljau2 (t a b c : R) : R := lerp t (lerp t a b) (lerp t b c).
Definition casteljau3 (t a b c d : R) : R := lerp t (casteljau2 t a b c) (casteljau2 t b c d).
(** f is differentiable everywhere with derivative f'. *)
Definition derivative (f f' : R -> R) : Prop := forall t, derivable_pt_lim f t (f' t).
(** v = the integral of f over [0, 1]: the increment of each antiderivative, of which there is one. *)
Definition integral01 (f : R -> R) (v : R) : Prop := (exists F, derivative F f) /\ forall F, derivative F f -> F 1 - F 0 = v.
(** [lo, hi] is the exact range of f over [0, 1]. *)
Definition range01 (f : R -> R) (lo hi : R) : Prop :=
  (forall t, 0 <= t <= 1 -> lo <= f t <= hi) /\ (exists t, 0 <= t <= 1 /\ f t = lo) /\ (exists t, 0 <= t <= 1 /\ f t = hi).
(** Weights of a convex combination. *)
Definition convex (w : list R) : Prop := Forall (fun x => 0 <= x) w /\ fold_right Rplus 0 w = 1.
Definition combination (w x : list R) : R := fold_right Rplus 0 (map (fun '(a, b) => a * b) (combine w x)).
