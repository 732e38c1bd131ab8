(** Linear congruential generators and distributions. *)
From Coq Require Import ZArith Reals.
From Verif Require Import QuatModel ProxSpec.
Open Scope R_scope.

(** The generator drand48: x -> (0x5deece66d x + 0xb) mod 2^48. *)
Definition drand48_next (x : Z) : Z := ((25214903917 * x + 11) mod 2 ^ 48)%Z.
(** Three 16 bit numbers as one of 48 bits, lowest first. *)
Definition bits48 (s : Z * Z * Z) : Z := let '(x0, x1, x2) := s in (x0 + 2 ^ 16 * x1 + 2 ^ 32 * x2)%Z.
Definition valid (s : Z * Z * Z) : Prop := let '(x0, x1, x2) := s in (0 <= x0 < 2 ^ 16 /\ 0 <= x1 < 2 ^ 16 /\ 0 <= x2 < 2 ^ 16)%Z.
(** The probability that a variable with density 1-|x| on [-1,1] is at most t. *)
Definition tent_cdf (t : R) : R := if Rle_dec t 0 then (1 + t) * (1 + t) / 2 else 1 - (1 - t) * (1 - t) / 2.
Definition unit3 (v : vec3) : Prop := vx v * vx v + vy v * vy v + vz v * vz v = 1.
