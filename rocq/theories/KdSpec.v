(** Specification of the k-d tree: what a tree stores, the order it keeps, and what a nearest point is. *)
From Coq Require Import List Arith Reals Permutation Sorted.
Import ListNotations.
From Verif Require Import KdModel.
Open Scope R_scope.

(** [srt] is a possible std::sort: for each coordinate, a decreasing rearrangement. *)
Definition sorts (srt : nat -> list vec -> list vec) : Prop := forall k l, Permutation l (srt k l) /\ StronglySorted (fun a b => co k a >= co k b) (srt k l).
Fixpoint stored (t : tree) : list vec := match t with Null => [] | Node s r l => s :: stored r ++ stored l end.
(** At depth d the coordinate number d mod 3 of the separator is between those on the left and those on the right. *)
Fixpoint ordered (t : tree) (depth : nat) : Prop :=
  match t with
  | Null => True
  | Node s r l => (forall p, In p (stored r) -> co (depth mod 3) p >= co (depth mod 3) s) /\ (forall p, In p (stored l) -> co (depth mod 3) p <= co (depth mod 3) s) /\ ordered r (S depth) /\ ordered l (S depth)
  end.
Fixpoint height (t : tree) : nat := match t with Null => 0 | Node _ r l => S (Nat.max (height r) (height l)) end.
Definition distance (a b : vec) : R := match a, b with (ax, ay, az), (bx, by_, bz) => sqrt ((ax - bx)² + (ay - by_)² + (az - bz)²) end.
Definition nearest (P : list vec) (q p : vec) : Prop := In p P /\ forall p', In p' P -> distance q p <= distance q p'.
