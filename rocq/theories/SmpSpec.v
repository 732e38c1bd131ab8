(** Areas of triangles, draws of points on them, and colours. *)
From Coq Require Import List Arith Bool ZArith Reals.
Import ListNotations.
From Verif Require Import MeasSpec SmpModel.
Open Scope R_scope.

(** Coordinate d of corner k of triangle t, and the edge from the first corner. *)
Definition coord (vtx : list R) (tri : list nat) (t k d : nat) : R := nth (nth (t * 3 + k) tri 0%nat * 3 + d) vtx 0.
Definition edge (vtx : list R) (tri : list nat) (t k d : nat) : R := coord vtx tri t k d - coord vtx tri t 0 d.
Definition dot (f g : nat -> R) : R := f 0%nat * g 0%nat + f 1%nat * g 1%nat + f 2%nat * g 2%nat.
(** The area, from the lengths of two edges and their angle. *)
Definition area (vtx : list R) (tri : list nat) (t : nat) : R :=
  let u := edge vtx tri t 1 in let v := edge vtx tri t 2 in sqrt (dot u u * dot v v - dot u v * dot u v) / 2.
Definition valid (vtx : list R) (tri : list nat) : Prop := forall i, In i tri -> (i * 3 + 3 <= length vtx)%nat.
(** The area of the first k of the selected triangles. *)
Definition before (vtx : list R) (tri sel : list nat) (k : nat) : R := sum k (fun i => area vtx tri (nth i sel 0%nat)).
Definition total (vtx : list R) (tri sel : list nat) : R := before vtx tri sel (length sel).
(** The number u falls into the share of selected triangle k: an open interval, of length its area over the total. *)
Definition falls (vtx : list R) (tri sel : list nat) (u : R) (k : nat) : Prop := before vtx tri sel k < u * total vtx tri sel < before vtx tri sel (S k).
(** Where in its share, from 0 to 1. *)
Definition share (vtx : list R) (tri sel : list nat) (u : R) (k : nat) : R := (u * total vtx tri sel - before vtx tri sel k) / area vtx tri (nth k sel 0%nat).
(** The unit square is folded onto the triangle below its diagonal. *)
Definition folded (s v a b : R) : Prop := (s + v <= 1 /\ a = s /\ b = v) \/ (1 < s + v /\ a = 1 - v /\ b = 1 - s).

(** Cut to the interval from 0 to 1. *)
Definition cut01 (x : R) : R := Rmax 0 (Rmin 1 x).
(** The fraction of the chroma that channel n (5 red, 3 green, 1 blue) lacks at the hue h. *)
Definition around (t : R) : R := if Rlt_dec t 6 then t else t - 6.
Definition lack (n h : R) : R := let k := around (n + 6 * h) in cut01 (Rmin k (4 - k)).
Definition hsv (n h s v : R) : R := v - v * s * lack n h.
Fixpoint increasing (m : list (R * color)) : Prop :=
  match m with (a, _) :: (((b, _) :: _) as rest) => a < b /\ increasing rest | _ => True end.
