(** Beams in the plane and peaks of energies. *)
From Coq Require Import List Arith Bool Reals.
Import ListNotations.
From Verif Require Import Imp MeasSpec BeamModel.
Open Scope R_scope.

(** The difference of the ends, and the length. *)
Definition dx (x : nat -> nat -> R) : R := x 1%nat 0%nat - x 0%nat 0%nat.
Definition dy (x : nat -> nat -> R) : R := x 1%nat 1%nat - x 0%nat 1%nat.
Definition len (x : nat -> nat -> R) : R := sqrt (dx x * dx x + dy x * dy x).
(** The stretch along the beam, the turn of the line between the ends, and the turn of end k against this line. *)
Definition stretch (x u : nat -> nat -> R) : R := (dx u * dx x + dy u * dy x) / len x.
Definition turn (x u : nat -> nat -> R) : R := (dy u * dx x - dx u * dy x) / (len x * len x).
Definition bend (x u : nat -> nat -> R) (k : nat) : R := u k 2%nat - turn x u.
(** The energy of an Euler-Bernoulli beam, cubic between its ends. *)
Definition beam_energy (EI AE : R) (x u : nat -> nat -> R) : R :=
  AE / len x * (stretch x u * stretch x u) / 2 + EI / len x * (2 * (bend x u 0 * bend x u 0) + 2 * (bend x u 0 * bend x u 1) + 2 * (bend x u 1 * bend x u 1)).
(** The work of forces along displacements. *)
Definition work (f v : nat -> nat -> R) : R := f 0%nat 0%nat * v 0%nat 0%nat + f 0%nat 1%nat * v 0%nat 1%nat + f 0%nat 2%nat * v 0%nat 2%nat + f 1%nat 0%nat * v 1%nat 0%nat + f 1%nat 1%nat * v 1%nat 1%nat + f 1%nat 2%nat * v 1%nat 2%nat.
(** A small rigid motion: both ends turn by theta, and so does the line between them. *)
Definition rigid (x u : nat -> nat -> R) : Prop := exists theta, u 0%nat 2%nat = theta /\ u 1%nat 2%nat = theta /\ dx u = - theta * dy x /\ dy u = theta * dx x.

(** The sum of the squares of velocities. *)
Definition squares (v : list R) : R := sum (length v / 3) (fun i => nth (i * 3 + 0) v 0 * nth (i * 3 + 0) v 0 + nth (i * 3 + 1) v 0 * nth (i * 3 + 1) v 0 + nth (i * 3 + 2) v 0 * nth (i * 3 + 2) v 0).
(** The damper called with one array after the other. *)
Fixpoint damp_all (e : list R) (vs : list (list R)) : option (list (list R)) :=
  match vs with
  | [] => Some []
  | v :: vs => '(e, v') <- Damp e v ;; r <- damp_all e vs ;; Some (v' :: r)
  end.
Definition peak (vs : list (list R)) (k : nat) : Prop := (3 <= k)%nat /\ squares (nth (k - 2) vs []) < squares (nth (k - 1) vs []) /\ squares (nth k vs []) < squares (nth (k - 1) vs []).
