(** Specification for the grid search. *)
From Coq Require Import List Arith ZArith Reals.
Import ListNotations.
Open Scope nat_scope.
(** Two points differ by at most h in each coordinate. *)
Definition near (h : R) (p q : R * R * R) : Prop := let '(x, y, z) := p in let '(u, v, w) := q in (Rabs (x - u) <= h /\ Rabs (y - v) <= h /\ Rabs (z - w) <= h)%R.
(** Grid cells that touch. *)
Definition touching (a b : Z * Z * Z) : Prop := let '(i, j, k) := a in let '(l, m, n) := b in (Z.abs (i - l) <= 1 /\ Z.abs (j - m) <= 1 /\ Z.abs (k - n) <= 1)%Z.
