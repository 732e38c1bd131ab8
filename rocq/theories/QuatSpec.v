(** Specification of quaternions and rotations: vector algebra, Hamilton's product in scalar/vector form, Rodrigues' rotation formula. *)
From Coq Require Import Reals List.
From Verif Require Import QuatModel.
Import ListNotations.
Open Scope R_scope.

Definition vadd (u v : vec3) : vec3 := V3 (vx u + vx v) (vy u + vy v) (vz u + vz v).
Definition vscale (s : R) (v : vec3) : vec3 := V3 (s * vx v) (s * vy v) (s * vz v).
Definition vdot (u v : vec3) : R := vx u * vx v + vy u * vy v + vz u * vz v.
Definition vcross (u v : vec3) : vec3 := V3 (vy u * vz v - vz u * vy v) (vz u * vx v - vx u * vz v) (vx u * vy v - vy u * vx v).
(** Quaternion = scalar part + vector part. *)
Definition im (q : quat) : vec3 := V3 (qx q) (qy q) (qz q).
Definition mk (s : R) (v : vec3) : quat := Q4 (vx v) (vy v) (vz v) s.
Definition hamilton (p q : quat) : quat := mk (qw p * qw q - vdot (im p) (im q)) (vadd (vadd (vscale (qw p) (im q)) (vscale (qw q) (im p))) (vcross (im p) (im q))).
Definition norm2 (q : quat) : R := qw q * qw q + vdot (im q) (im q).
Definition unit (q : quat) : Prop := norm2 q = 1.
(** Rotation of v by angle th about the unit axis n. *)
Definition rodrigues (n : vec3) (th : R) (v : vec3) : vec3 := vadd (vadd (vscale (cos th) v) (vscale (sin th) (vcross n v))) (vscale ((1 - cos th) * vdot n v) n).
Definition axis (i : nat) : vec3 := match i with 0%nat => V3 1 0 0 | 1%nat => V3 0 1 0 | _ => V3 0 0 1 end.
(** Matrix times vector, and rotation matrices: orthonormal rows in a right-handed system. *)
Definition row0 (m : mat3) : vec3 := V3 (m0 m) (m1 m) (m2 m).
Definition row1 (m : mat3) : vec3 := V3 (m3 m) (m4 m) (m5 m).
Definition row2 (m : mat3) : vec3 := V3 (m6 m) (m7 m) (m8 m).
Definition matvec (m : mat3) (v : vec3) : vec3 := V3 (vdot (row0 m) v) (vdot (row1 m) v) (vdot (row2 m) v).
Definition rotation (m : mat3) : Prop :=
  vdot (row0 m) (row0 m) = 1 /\ vdot (row1 m) (row1 m) = 1 /\ vdot (row2 m) (row2 m) = 1 /\
  vdot (row0 m) (row1 m) = 0 /\ vdot (row1 m) (row2 m) = 0 /\ vdot (row2 m) (row0 m) = 0 /\
  vdot (vcross (row0 m) (row1 m)) (row2 m) = 1.
(** A 4x4 matrix applied to the point v in homogeneous coordinates. *)
Definition mat4_apply (m : list R) (v : vec3) : list R := map (fun i => nth (4 * i) m 0 * vx v + nth (4 * i + 1) m 0 * vy v + nth (4 * i + 2) m 0 * vz v + nth (4 * i + 3) m 0) (seq 0 4).
Definition hom (v : vec3) : list R := [vx v; vy v; vz v; 1].
