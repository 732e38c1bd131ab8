(** Specification vocabulary for the intersection tests. *)
From Coq Require Import List Reals.
From Verif Require Import QuatModel ProxSpec.
Open Scope R_scope.

(** The plane: segments, boxes, and twice the signed area of a triangle (zero if the points are on a line). *)
Definition seg2 (p q x : R * R) : Prop := exists t, 0 <= t <= 1 /\ x = ((1 - t) * fst p + t * fst q, (1 - t) * snd p + t * snd q).
Definition box2 (lo hi x : R * R) : Prop := fst lo <= fst x <= fst hi /\ snd lo <= snd x <= snd hi.
Definition inner2 (lo hi x : R * R) : Prop := fst lo < fst x < fst hi /\ snd lo < snd x < snd hi.
Definition turn (p q r : R * R) : R := (fst q - fst p) * (snd r - snd p) - (snd q - snd p) * (fst r - fst p).
(** No line contains the four points: three of them are not on a line. *)
Definition not_on_a_line (a b c d : R * R) : Prop := turn a b c <> 0 \/ turn a b d <> 0 \/ turn c d a <> 0 \/ turn c d b <> 0.

(** Space. *)
Definition ray (o d x : vec3) : Prop := exists t, 0 <= t /\ x = comb 1 t 0 o d origin3.
Definition flat (p q r : vec3) : Prop := area2 p q r = 0.
(** The normal of a triangle, and the line that is normal to it through x. *)
Definition nrm (p q r : vec3) : vec3 :=
  let u := V3 (vx q - vx p) (vy q - vy p) (vz q - vz p) in let v := V3 (vx r - vx p) (vy r - vy p) (vz r - vz p) in
  V3 (vy u * vz v - vz u * vy v) (vz u * vx v - vx u * vz v) (vx u * vy v - vy u * vx v).
Definition inner (u v : vec3) : R := vx u * vx v + vy u * vy v + vz u * vz v.
(** The border of a triangle. *)
Definition edges (p q r x : vec3) : Prop := segment p q x \/ segment q r x \/ segment r p x.
(** Triangle t of the mesh has the corners p, q and r, with the indices i, j and k. *)
Definition point_at (aXYZ : list R) (i : nat) (p : vec3) : Prop := nth_error aXYZ (3 * i) = Some (vx p) /\ nth_error aXYZ (3 * i + 1) = Some (vy p) /\ nth_error aXYZ (3 * i + 2) = Some (vz p).
Definition corners_of (aTri : list nat) (aXYZ : list R) (t i j k : nat) (p q r : vec3) : Prop :=
  nth_error aTri (3 * t) = Some i /\ nth_error aTri (3 * t + 1) = Some j /\ nth_error aTri (3 * t + 2) = Some k /\ point_at aXYZ i p /\ point_at aXYZ j q /\ point_at aXYZ k r.
(** The two triangles are in general position: no corner of one is in the plane of the other, and no edge of one meets an edge of the other. *)
Definition off_plane (p q r x : vec3) : Prop := volume6 x p q r <> 0.
Definition general_position (p0 p1 p2 q0 q1 q2 : vec3) : Prop :=
  off_plane q0 q1 q2 p0 /\ off_plane q0 q1 q2 p1 /\ off_plane q0 q1 q2 p2 /\ off_plane p0 p1 p2 q0 /\ off_plane p0 p1 p2 q1 /\ off_plane p0 p1 p2 q2 /\
  forall x, edges p0 p1 p2 x -> edges q0 q1 q2 x -> False.
