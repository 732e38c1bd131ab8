(** Points that move along straight lines, and the times when four of them are in a plane. *)
From Coq Require Import Reals.
From Verif Require Import QuatModel ProxModel.
Open Scope R_scope.

(** The place at time t, of a point that is at s at time 0 and at e at time 1. *)
Definition at_time (s e : vec3) (t : R) : vec3 := add3 (mul3 (1 - t) s) (mul3 t e).
(** Six times the volume of the tetrahedron of four points; 0 exactly if they are in a plane. *)
Definition volume6 (a b c d : vec3) : R := dot3 (sub3 d a) (cross3 (sub3 b a) (sub3 c a)).
Definition moving (s0 s1 s2 s3 e0 e1 e2 e3 : vec3) (t : R) : R := volume6 (at_time s0 e0 t) (at_time s1 e1 t) (at_time s2 e2 t) (at_time s3 e3 t).
(** A function is the cubic polynomial with these coefficients. *)
Definition cubic (f : R -> R) (k0 k1 k2 k3 : R) : Prop := forall t, f t = k0 + k1 * t + k2 * t ^ 2 + k3 * t ^ 3.
