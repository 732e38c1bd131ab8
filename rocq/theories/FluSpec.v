(** What the steps of a fluid on a grid mean: fields are functions of the column and the row. *)
From Coq Require Import List Arith Bool ZArith Reals.
From Verif Require Import MeasSpec FluModel.
Open Scope R_scope.

(** An array with ni columns and nj rows, and its value in column i of row j. *)
Definition sized {T} (a : array2 T) (ni nj : nat) : Prop := a_ni a = ni /\ a_nj a = nj /\ length (a_v a) = (ni * nj)%nat.
Definition cell {T} (z : T) (a : array2 T) (i j : nat) : T := nth (i + a_ni a * j) (a_v a) z.
Definition val (a : array2 R) (i j : nat) : R := cell 0 a i j.
Definition val2 (a : array2 (R * R)) (i j : nat) : R * R := cell (0, 0) a i j.

(** The sum of the differences to the neighbours of a cell that are in the grid. *)
Definition lap (nx ny : nat) (p : nat -> nat -> R) (i j : nat) : R :=
  (if (i + 1 <? nx)%nat then p (i + 1)%nat j - p i j else 0) + (if (0 <? i)%nat then p (i - 1)%nat j - p i j else 0) +
  (if (j + 1 <? ny)%nat then p i (j + 1)%nat - p i j else 0) + (if (0 <? j)%nat then p i (j - 1)%nat - p i j else 0).
(** The Poisson equation, without flow through the border. *)
Definition solves (nx ny : nat) (d : nat -> nat -> R) (s : R) (p : nat -> nat -> R) : Prop := forall i j, (i < nx)%nat -> (j < ny)%nat -> lap nx ny p i j = d i j * s.
(** A sweep of the method of Gauss and Seidel from p to q: the neighbours before a cell are new, the ones after it are old, and the cell itself stands for neighbours that do not exist. *)
Definition sweep (nx ny : nat) (d : nat -> nat -> R) (s : R) (p q : nat -> nat -> R) : Prop := forall i j, (i < nx)%nat -> (j < ny)%nat ->
  4 * q i j = (if (i + 1 <? nx)%nat then p (i + 1)%nat j else p i j) + (if (0 <? i)%nat then q (i - 1)%nat j else p i j) +
              (if (j + 1 <? ny)%nat then p i (j + 1)%nat else p i j) + (if (0 <? j)%nat then q i (j - 1)%nat else p i j) - d i j * s.
(** The flow out of a cell: velocities are at the faces of the cells. *)
Definition outflow (u v : nat -> nat -> R) (i j : nat) : R := (u (i + 1)%nat j - u i j) + (v i (j + 1)%nat - v i j).
Definition total (nx ny : nat) (f : nat -> nat -> R) : R := sum ny (fun j => sum nx (fun i => f i j)).

(** The number of the cell between nodes, of n nodes at 0, 1, ..., that has x, or that is nearest to x. *)
Definition between (n : nat) (x : R) (i : nat) : Prop := (i + 1 < n)%nat /\ (INR i <= x \/ i = 0%nat) /\ (x < INR i + 1 \/ (i + 2)%nat = n).
Definition blend (f : nat -> nat -> R) (i j : nat) (x y : R) : R :=
  (INR i + 1 - x) * (INR j + 1 - y) * f i j + (x - INR i) * (INR j + 1 - y) * f (i + 1)%nat j + (INR i + 1 - x) * (y - INR j) * f i (j + 1)%nat + (x - INR i) * (y - INR j) * f (i + 1)%nat (j + 1)%nat.
(** z is the value at (x, y) of the function that is f at the nodes, linear in each direction on the cells, and goes on like that outside of the grid *)
Definition interpolated (ni nj : nat) (f : nat -> nat -> R) (x y z : R) : Prop := exists i j, between ni x i /\ between nj y j /\ z = blend f i j x y.
(** component 0 or 1 of a vector at the nodes *)
Definition comp (k : nat) (f : nat -> nat -> R * R) (i j : nat) : R := match k with O => fst (f i j) | _ => snd (f i j) end.
(** The mean of the four velocities v next to a face of u, and of the four velocities u next to a face of v; at the border the nearest ones count twice. *)
Definition v_at_u (ni : nat) (v : nat -> nat -> R) (i j : nat) : R := (v (i - 1)%nat j + v (Nat.min i (ni - 1)) j + v (i - 1)%nat (j + 1)%nat + v (Nat.min i (ni - 1)) (j + 1)%nat) / 4.
Definition u_at_v (nj : nat) (u : nat -> nat -> R) (i j : nat) : R := (u i (j - 1)%nat + u (i + 1)%nat (j - 1)%nat + u i (Nat.min j (nj - 1)) + u (i + 1)%nat (Nat.min j (nj - 1))) / 4.
(** a place in the grid *)
Definition inside (ni nj : nat) (x y : R) : Prop := 0 <= x <= INR ni - 1 /\ 0 <= y <= INR nj - 1.
