(** What B-splines are: the recursion of Cox and de Boor. *)
From Coq Require Import List Arith Bool ZArith Reals.
Import ListNotations.
From Verif Require Import MeasSpec.
Open Scope R_scope.

(** quotients, with 0 for a division by zero *)
Definition ratio (a b : R) : R := if Req_EM_T b 0 then 0 else a / b.
(** The B-spline of degree d that starts at knot i, at the parameter t, from those of degree 0: each is 1 on its span and 0 elsewhere. *)
Fixpoint cox (k : nat -> R) (on : nat -> R) (d i : nat) (t : R) : R :=
  match d with
  | O => on i
  | S e => ratio (t - k i) (k (i + d)%nat - k i) * cox k on e i t + ratio (k (i + d + 1)%nat - t) (k (i + d + 1)%nat - k (i + 1)%nat) * cox k on e (i + 1) t
  end.
(** span i is [k i, k (i+1)), or (k i, k (i+1)], or the one with number s is taken *)
Definition right_open (k : nat -> R) (t : R) (i : nat) : R := if Rle_dec (k i) t then if Rlt_dec t (k (i + 1)%nat) then 1 else 0 else 0.
Definition left_open (k : nat -> R) (t : R) (i : nat) : R := if Rlt_dec (k i) t then if Rle_dec t (k (i + 1)%nat) then 1 else 0 else 0.
Definition taken (s i : nat) : R := if (i =? s)%nat then 1 else 0.
(** The curve with the control points P. *)
Definition spline (k on : nat -> R) (d n : nat) (P : nat -> R) (t : R) : R := sum n (fun i => cox k on d i t * P i).
Definition rising (k : nat -> R) (m : nat) : Prop := forall i, (i + 1 < m)%nat -> k i <= k (i + 1)%nat.
(** knots of a list *)
Definition kn (l : list R) (i : nat) : R := nth i l 0.
(** the knots 0 (d+1 times), 1, 2, ..., N (d+1 times) *)
Definition clamped (d : nat) (N : nat) (i : nat) : R := INR (Nat.min (i - d) N).
(** weights of a mean *)
Definition mean (n : nat) (w : nat -> R) : Prop := (forall i, (i < n)%nat -> 0 <= w i) /\ sum n w = 1.
