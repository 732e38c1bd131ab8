(** Specification for voxel grids. *)
From Coq Require Import List Arith Bool ZArith.
Import ListNotations.
Open Scope nat_scope.

(** All cells (a, b, c) of an n1 x n2 x n3 grid in lexicographic order. *)
Definition cells (n1 n2 n3 : nat) : list (nat * nat * nat) := flat_map (fun a => flat_map (fun b => map (fun c => (a, b, c)) (seq 0 n3)) (seq 0 n2)) (seq 0 n1).
Definition inside (n1 n2 n3 : nat) (p : Z * Z * Z) : Prop := let '(x, y, z) := p in (0 <= x < Z.of_nat n1 /\ 0 <= y < Z.of_nat n2 /\ 0 <= z < Z.of_nat n3)%Z.
(** The value of a voxel: the array in x-major order (meshes), 0 outside. *)
Definition at_xyz (ny nz : nat) (a : list Z) (x y z : nat) : Z := nth (x * (ny * nz) + y * nz + z) a 0%Z.
(** z-major order (dilation, erosion). *)
Definition at_zyx (nx ny : nat) (a : list Z) (x y z : nat) : Z := nth (z * (ny * nx) + y * nx + x) a 0%Z.
(** The six directions. *)
Definition dirs : list (Z * Z * Z) := [(-1, 0, 0); (1, 0, 0); (0, -1, 0); (0, 1, 0); (0, 0, -1); (0, 0, 1)]%Z.
Definition step (p : nat * nat * nat) (d : Z * Z * Z) : Z * Z * Z := let '(x, y, z) := p in let '(dx, dy, dz) := d in (Z.of_nat x + dx, Z.of_nat y + dy, Z.of_nat z + dz)%Z.
(** [look n1 n2 n3 f p] is f at the cell p, or [out] outside of the grid. *)
Definition look {T} (n1 n2 n3 : nat) (f : nat -> nat -> nat -> T) (out : T) (p : Z * Z * Z) : T :=
  let '(x, y, z) := p in
  if ((0 <=? x) && (x <? Z.of_nat n1) && (0 <=? y) && (y <? Z.of_nat n2) && (0 <=? z) && (z <? Z.of_nat n3))%Z then f (Z.to_nat x) (Z.to_nat y) (Z.to_nat z) else out.
(** The four corners of the face of the unit cube at p in direction d, in the order that is counter-clockwise from outside. *)
Definition cross (u v : Z * Z * Z) : Z * Z * Z := let '(a, b, c) := u in let '(d, e, f) := v in (b * f - c * e, c * d - a * f, a * e - b * d)%Z.
Definition minus (u v : Z * Z * Z) : Z * Z * Z := let '(a, b, c) := u in let '(d, e, f) := v in (a - d, b - e, c - f)%Z.
Definition plus (u v : Z * Z * Z) : Z * Z * Z := let '(a, b, c) := u in let '(d, e, f) := v in (a + d, b + e, c + f)%Z.
Definition inner (u v : Z * Z * Z) : Z := let '(a, b, c) := u in let '(d, e, f) := v in (a * d + b * e + c * f)%Z.
Definition ofnat (p : nat * nat * nat) : Z * Z * Z := let '(x, y, z) := p in (Z.of_nat x, Z.of_nat y, Z.of_nat z).
(** A quad is the outward face of cell p in direction d: a unit square, a closed parallelogram with normal d, centred at the centre of p plus d/2. *)
Definition outward_face (p : nat * nat * nat) (d : Z * Z * Z) (c : list (nat * nat * nat)) : Prop :=
  exists a0 a1 a2 a3, c = [a0; a1; a2; a3] /\
    let '(q0, q1, q2, q3) := (ofnat a0, ofnat a1, ofnat a2, ofnat a3) in
    minus q1 q0 = minus q2 q3 /\ cross (minus q1 q0) (minus q3 q0) = d /\ inner (minus q1 q0) (minus q3 q0) = 0%Z /\ inner (minus q1 q0) (minus q1 q0) = 1%Z /\
    plus (plus q0 q1) (plus q2 q3) = plus (plus (plus (ofnat p) (ofnat p)) (plus (ofnat p) (ofnat p))) (plus (2, 2, 2)%Z (plus d d)).
(** Six times the signed volume of a tetrahedron. *)
Definition vol6 (c : list (nat * nat * nat)) : Z := match map ofnat c with [q0; q1; q2; q3] => inner (cross (minus q1 q0) (minus q2 q0)) (minus q3 q0) | _ => 0%Z end.
(** Number of times the directed edge (a, b) is used by the quads. *)
Definition cyc_edges (q : list nat) : list (nat * nat) := match q with [] => [] | v :: vs => combine q (vs ++ [v]) end.
Definition uses (quads : list (list nat)) (a b : nat) : nat := length (filter (fun e => (fst e =? a) && (snd e =? b)) (flat_map cyc_edges quads)).
(** Point number i of an array of coordinates. *)
Definition point (aXYZ : list nat) (i : nat) : nat * nat * nat := (nth (3 * i) aXYZ 0, nth (3 * i + 1) aXYZ 0, nth (3 * i + 2) aXYZ 0).
(** The cells whose voxel is not 0, in order. *)
Definition set_cells (nx ny nz : nat) (a : list Z) : list (nat * nat * nat) := filter (fun '(x, y, z) => negb (at_xyz ny nz a x y z =? 0)%Z) (cells nx ny nz).
Definition shift (p d : nat * nat * nat) : nat * nat * nat := let '(x, y, z) := p in let '(a, b, c) := d in (x + a, y + b, z + c).
(** The corners of a hexahedron: bottom and top square, each counter-clockwise from above. *)
Definition hex_corners (p : nat * nat * nat) : list (nat * nat * nat) := map (shift p) [(0, 0, 0); (1, 0, 0); (1, 1, 0); (0, 1, 0); (0, 0, 1); (1, 0, 1); (1, 1, 1); (0, 1, 1)].
(** The corners passed when walking from corner p to the opposite one along the axes in a given order. *)
Definition walk (p : nat * nat * nat) (o : (nat * nat * nat) * (nat * nat * nat) * (nat * nat * nat)) : list (nat * nat * nat) :=
  let '(d1, d2, d3) := o in [p; shift p d1; shift (shift p d1) d2; shift (shift (shift p d1) d2) d3].
Definition axis_orders : list ((nat * nat * nat) * (nat * nat * nat) * (nat * nat * nat)) :=
  let x := (1, 0, 0) in let y := (0, 1, 0) in let z := (0, 0, 1) in [(x, y, z); (x, z, y); (z, x, y); (y, x, z); (y, z, x); (z, y, x)].
(** Consecutive groups of n numbers. *)
Definition groups {T} (n : nat) (l : list T) (g : list (list T)) : Prop := l = concat g /\ Forall (fun x => length x = n) g.
(** [b0,b1) x [b2,b3) x [b4,b5) is the smallest box that has all the cells of l. *)
Definition tight (l : list (Z * Z * Z)) (b0 b1 b2 b3 b4 b5 : Z) : Prop :=
  (forall x y z, In (x, y, z) l -> b0 <= x < b1 /\ b2 <= y < b3 /\ b4 <= z < b5)%Z /\
  (exists y z, In (b0, y, z) l) /\ (exists y z, In ((b1 - 1)%Z, y, z) l) /\ (exists x z, In (x, b2, z) l) /\ (exists x z, In (x, (b3 - 1)%Z, z) l) /\ (exists x y, In (x, y, b4) l) /\ (exists x y, In (x, y, (b5 - 1)%Z) l).
