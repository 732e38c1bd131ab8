(** Specification for polynomial roots. *)
From Coq Require Import List Arith Reals.
Import ListNotations.
Open Scope R_scope.
(** The polynomial with coefficients a, lowest first. *)
Fixpoint poly_from (a : list R) (k : nat) (x : R) : R := match a with [] => 0 | c :: a => c * x ^ k + poly_from a (S k) x end.
Definition poly (a : list R) (x : R) : R := poly_from a 0 x.
