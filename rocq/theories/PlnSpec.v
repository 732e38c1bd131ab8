(** Points of polylines. *)
From Coq Require Import List Arith Bool ZArith Reals.
From Verif Require Import QuatModel ProxSpec MeasSpec.
Open Scope R_scope.

Definition pt (l : list vec3) (i : nat) : vec3 := nth i l origin3.
(** The length of a segment, and of the first n segments. *)
Definition seglen (l : list vec3) (i : nat) : R := dist3 (pt l i) (pt l (i + 1)).
Definition arc (l : list vec3) (n : nat) : R := sum n (seglen l).
Definition on_polyline (l : list vec3) (x : vec3) : Prop := exists i, (i + 1 < length l)%nat /\ segment (pt l i) (pt l (i + 1)) x.
(** x is on segment i at the ratio t *)
Definition on_segment (l : list vec3) (i : nat) (t : R) (x : vec3) : Prop := (i + 1 < length l)%nat /\ 0 <= t <= 1 /\ x = comb (1 - t) t 0 (pt l i) (pt l (i + 1)) origin3.
(** x is the point with the parameter s (segments have length 1), or at the length s along the polyline *)
Definition at_param (l : list vec3) (s : R) (x : vec3) : Prop := exists i t, on_segment l i t x /\ s = INR i + t.
Definition at_arc (l : list vec3) (s : R) (x : vec3) : Prop := exists i t, on_segment l i t x /\ s = arc l i + t * seglen l i.
