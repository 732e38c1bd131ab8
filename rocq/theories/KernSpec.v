(** Pixels of images, and sums over the nodes of a grid. *)
From Coq Require Import List Arith Bool ZArith Reals.
Import ListNotations.
From Verif Require Import MeasSpec.
Open Scope R_scope.

(** Colour i of the pixel in column ix and row iy of an image with w columns, from 0 to 1 when stored from 0 to 255. *)
Definition pixel (w : nat) (img : list nat) (ix iy i : nat) : R := INR (nth ((ix + iy * w) * 3 + i) img 0%nat) / 255.
(** The next column or row; the last one is its own next one. *)
Definition next (n k : nat) : nat := if (k + 1 <? n)%nat then (k + 1)%nat else k.
(** The mix of two values. *)
Definition mix (r a b : R) : R := (1 - r) * a + r * b.
(** The sum over a box of l times m times n nodes. *)
Definition box_sum (l m n : nat) (f : nat -> nat -> nat -> R) : R := sum l (fun i => sum m (fun j => sum n (fun k => f i j k))).
(** Node number i, in a grid with nodes at the multiples of h, counted from the multiple lo. *)
Definition node (h : R) (lo : Z) (i : nat) : R := h * (IZR lo + INR i).
(** n nodes from lo on reach two cells to each side of p, except for the ends, where the kernel is 0. *)
Definition reach (h : R) (lo : Z) (n : nat) (p : R) : Prop := IZR lo + 1 <= p / h <= IZR lo + INR n - 2.
