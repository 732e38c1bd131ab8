(** Specification vocabulary for nearest points. *)
From Coq Require Import Reals.
From Verif Require Import QuatModel.
Open Scope R_scope.

(** The distance of two points, a combination of three points, and the flat sets. *)
Definition dist3 (a b : vec3) : R := sqrt ((vx a - vx b) ^ 2 + (vy a - vy b) ^ 2 + (vz a - vz b) ^ 2).
Definition comb (a b c : R) (p q r : vec3) : vec3 := V3 (a * vx p + b * vx q + c * vx r) (a * vy p + b * vy q + c * vy r) (a * vz p + b * vz q + c * vz r).
Definition origin3 : vec3 := V3 0 0 0.
Definition segment (p q x : vec3) : Prop := exists t, 0 <= t <= 1 /\ x = comb (1 - t) t 0 p q origin3.
Definition line (o d x : vec3) : Prop := exists t, x = comb 1 t 0 o d origin3.
Definition triangle (p q r x : vec3) : Prop := exists a b c, 0 <= a /\ 0 <= b /\ 0 <= c /\ a + b + c = 1 /\ x = comb a b c p q r.
Definition plane (p q r x : vec3) : Prop := exists a b c, a + b + c = 1 /\ x = comb a b c p q r.

(** x is a point of the set closest to p; x and y are points of the two sets closest to each other. *)
Definition closest (S : vec3 -> Prop) (p x : vec3) : Prop := S x /\ forall y, S y -> dist3 x p <= dist3 y p.
Definition closest_pair (S T : vec3 -> Prop) (x y : vec3) : Prop := S x /\ T y /\ forall x' y', S x' -> T y' -> dist3 x y <= dist3 x' y'.

(** Twice the area of a triangle. *)
Definition area2 (p q r : vec3) : R :=
  let u := V3 (vx q - vx p) (vy q - vy p) (vz q - vz p) in let v := V3 (vx r - vx p) (vy r - vy p) (vz r - vz p) in
  sqrt ((vy u * vz v - vz u * vy v) ^ 2 + (vz u * vx v - vx u * vz v) ^ 2 + (vx u * vy v - vy u * vx v) ^ 2).

(** Six times the signed volume of a tetrahedron: a determinant. *)
Definition volume6 (p q0 q1 q2 : vec3) : R :=
  let a := V3 (vx q0 - vx p) (vy q0 - vy p) (vz q0 - vz p) in let b := V3 (vx q1 - vx p) (vy q1 - vy p) (vz q1 - vz p) in let c := V3 (vx q2 - vx p) (vy q2 - vy p) (vz q2 - vz p) in
  vx a * (vy b * vz c - vz b * vy c) + vy a * (vz b * vx c - vx b * vz c) + vz a * (vx b * vy c - vy b * vx c).
