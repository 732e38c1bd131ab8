(** Specification vocabulary for energies and constraints of moving vertices. *)
From Coq Require Import List Arith Reals.
Import ListNotations.
From Verif Require Import MeasSpec.
Open Scope R_scope.

(** Positions of vertices: coordinate d of vertex i is p i d.  A motion gives the positions at every time; n vertices with m coordinates have the
    velocities v at time t. *)
Definition moves (n m : nat) (c : R -> nat -> nat -> R) (t : R) (v : nat -> nat -> R) : Prop :=
  forall i d, (i < n)%nat -> (d < m)%nat -> derivable_pt_lim (fun s => c s i d) t (v i d).
(** The work of the forces g on vertices with velocities v. *)
Definition power (n m : nat) (g v : nat -> nat -> R) : R := sum n (fun i => sum m (fun d => g i d * v i d)).
(** g is the gradient of W at p: along every motion through p, with any velocities, the rate of change of W is the power of g. *)
Definition is_gradient (n m : nat) (W : (nat -> nat -> R) -> R) (p g : nat -> nat -> R) : Prop :=
  forall c t v, c t = p -> moves n m c t v -> derivable_pt_lim (fun s => W (c s)) t (power n m g v).
(** H is the Jacobian at p of the functions G i d: H i j d e is the derivative of G i d by coordinate e of vertex j. *)
Definition is_jacobian (n m : nat) (G : (nat -> nat -> R) -> nat -> nat -> R) (p : nat -> nat -> R) (H : nat -> nat -> nat -> nat -> R) : Prop :=
  forall i d, (i < n)%nat -> (d < m)%nat -> is_gradient n m (fun q => G q i d) p (fun j e => H i j d e).
(** A symmetric matrix, and a matrix whose quadratic form is never negative. *)
Definition symmetric (n m : nat) (H : nat -> nat -> nat -> nat -> R) : Prop := forall i j d e, (i < n)%nat -> (j < n)%nat -> (d < m)%nat -> (e < m)%nat -> H i j d e = H j i e d.
Definition form (n m : nat) (H : nat -> nat -> nat -> nat -> R) (v : nat -> nat -> R) : R :=
  sum n (fun i => sum m (fun d => sum n (fun j => sum m (fun e => v i d * H i j d e * v j e)))).
Definition semidefinite (n m : nat) (H : nat -> nat -> nat -> nat -> R) : Prop := forall v, 0 <= form n m H v.

(** Vectors with three coordinates. *)
Definition dot (a b : nat -> R) : R := sum 3 (fun d => a d * b d).
Definition norm (a : nat -> R) : R := sqrt (dot a a).
Definition diff (a b : nat -> R) : nat -> R := fun d => a d - b d.
Definition crossp (a b : nat -> R) : nat -> R :=
  fun d => match d with 0%nat => a 1%nat * b 2%nat - a 2%nat * b 1%nat | 1%nat => a 2%nat * b 0%nat - a 0%nat * b 2%nat | _ => a 0%nat * b 1%nat - a 1%nat * b 0%nat end.
Definition dist (a b : nat -> R) : R := norm (diff a b).
Definition dist_plane (a b : nat -> R) : R := sqrt ((a 0%nat - b 0%nat) ^ 2 + (a 1%nat - b 1%nat) ^ 2).
Definition area (a b c : nat -> R) : R := norm (crossp (diff b a) (diff c a)) / 2.
(** The cotangent of the angle at a between the directions to b and to c. *)
Definition cotangent (a b c : nat -> R) : R := dot (diff b a) (diff c a) / norm (crossp (diff b a) (diff c a)).

(** The edges from vertex 0 of a rest triangle are (x1, y1) and (x2, y2) in an orthonormal frame (a, b) of its plane. *)
Definition in_frame (C : nat -> nat -> R) (a b : nat -> R) (x1 y1 x2 y2 : R) : Prop :=
  dot a a = 1 /\ dot b b = 1 /\ dot a b = 0 /\
  (forall d, (d < 3)%nat -> C 1%nat d - C 0%nat d = x1 * a d + y1 * b d) /\ (forall d, (d < 3)%nat -> C 2%nat d - C 0%nat d = x2 * a d + y2 * b d).
(** The linear map that takes the frame to fa, fb takes the edges of the rest triangle to the edges of the triangle c. *)
Definition deforms (c : nat -> nat -> R) (fa fb : nat -> R) (x1 y1 x2 y2 : R) : Prop :=
  (forall d, (d < 3)%nat -> c 1%nat d - c 0%nat d = x1 * fa d + y1 * fb d) /\ (forall d, (d < 3)%nat -> c 2%nat d - c 0%nat d = x2 * fa d + y2 * fb d).
(** Green-Lagrange strains, half of F^T F - 1, and the energy of Saint Venant and Kirchhoff for an area. *)
Definition strain_aa (fa fb : nat -> R) : R := (dot fa fa - 1) / 2.
Definition strain_bb (fa fb : nat -> R) : R := (dot fb fb - 1) / 2.
Definition strain_ab (fa fb : nat -> R) : R := dot fa fb / 2.
Definition stvk_energy (A lambda myu : R) (fa fb : nat -> R) : R :=
  A * (lambda / 2 * (strain_aa fa fb + strain_bb fa fb) ^ 2 + myu * (strain_aa fa fb ^ 2 + strain_bb fa fb ^ 2 + 2 * strain_ab fa fb ^ 2)).
(** The second Piola-Kirchhoff stress of that energy, as a bilinear form of two directions (ux, uy) and (vx, vy) in the rest frame. *)
Definition stress (lambda myu : R) (fa fb : nat -> R) (ux uy vx vy : R) : R :=
  lambda * (strain_aa fa fb + strain_bb fa fb) * (ux * vx + uy * vy) +
  2 * myu * (strain_aa fa fb * ux * vx + strain_bb fa fb * uy * vy + strain_ab fa fb * (ux * vy + uy * vx)).
(** The edges of a triangle and of a tetrahedron in the order of the constraints. *)
Definition tri_ends (k : nat) : nat * nat := nth k [(1, 2); (2, 0); (0, 1)]%nat (0, 0)%nat.
Definition tet_ends (k : nat) : nat * nat := nth k [(0, 1); (0, 2); (0, 3); (1, 2); (1, 3); (2, 3)]%nat (0, 0)%nat.
(** The cosine of the angle between the two segments 01 and 12 of a rod. *)
Definition cosine (p : nat -> nat -> R) : R := dot (diff (p 1%nat) (p 0%nat)) (diff (p 2%nat) (p 1%nat)) / (dist (p 0%nat) (p 1%nat) * dist (p 1%nat) (p 2%nat)).
(** The weights of the vertices of the triangles 023 and 132 in the bending at the edge 23. *)
Definition bweight (P : nat -> nat -> R) (i : nat) : R :=
  nth i [- cotangent (P 2%nat) (P 0%nat) (P 3%nat) - cotangent (P 3%nat) (P 2%nat) (P 0%nat);
         - cotangent (P 2%nat) (P 1%nat) (P 3%nat) - cotangent (P 3%nat) (P 2%nat) (P 1%nat);
         cotangent (P 3%nat) (P 2%nat) (P 0%nat) + cotangent (P 3%nat) (P 2%nat) (P 1%nat);
         cotangent (P 2%nat) (P 0%nat) (P 3%nat) + cotangent (P 2%nat) (P 1%nat) (P 3%nat)] 0.
(** Lengths up to this number are treated as zero. *)
Definition tiny : R := / 10000000000000000.
