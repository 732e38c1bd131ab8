(** Vocabulary for the theorems on linear elasticity: displacement gradients, strain, elastic work, masses, gravity. *)
From Coq Require Import List Arith Reals.
Import ListNotations.
From Verif Require Import Imp Alg SpModel SpSpec FemModel FemSpec.
Local Open Scope R_scope.

(** The vector field stored in an array with d numbers per point. *)
Definition vec (d : nat) (l : list R) : nat -> nat -> R := fun p k => cmp d l p k.

(** [strain G] is the symmetric part of a displacement gradient ([G a k] is the derivative of component a along k). *)
Definition strain (G : nat -> nat -> R) (a b : nat) : R := (G a b + G b a) / 2.
Definition trace (d : nat) (G : nat -> nat -> R) : R := rsum d (fun a => G a a).
(** Work of the stress  lambda tr(eps) I + 2 mu eps  of G on the strain of H. *)
Definition work (d : nat) (lambda mu : R) (G H : nat -> nat -> R) : R :=
  lambda * trace d G * trace d H + 2 * mu * rsum d (fun a => rsum d (fun b => strain G a b * strain H a b)).

Section Solid.
Variables (tet : bool) (X : list R) (T : list nat) (nT np : nat).
Notation d := (ndim tet).
Notation m := (size tet X T).
(** [G e] is the gradient on element e of the piecewise linear vector field u. *)
Definition vgradients (u : nat -> nat -> R) (G : nat -> nat -> nat -> R) : Prop :=
  forall a, (a < d)%nat -> gradients tet X T nT (fun p => u p a) (fun e k => G e a k).
(** Integrals over element e: the product of two vector fields, the work of gravity, and the lumped version of the first. *)
Definition vmass (e : nat) (u v : nat -> nat -> R) : R := rsum d (fun a => mass tet X T e (fun p => u p a) (fun p => v p a)).
Definition gravity (e : nat) (g : nat -> R) (v : nat -> nat -> R) : R := m e * rsum d (fun a => g a * mean tet T e (fun p => v p a)).
Definition lumped (e : nat) (u v : nat -> nat -> R) : R :=
  m e / INR (ncor tet) * rsum (ncor tet) (fun i => rsum d (fun a => u (nd (ncor tet) T e i) a * v (nd (ncor tet) T e i) a)).

(** (B,b') is (A,b) plus the weak form of elastic equilibrium under gravity, linearised at the displacement w. *)
Definition static_weak (mu lambda rho : R) (g : nat -> R) (w : nat -> nat -> R) (A : matsp Rcr) (b : list R) (B : matsp Rcr) (b' : list R) : Prop :=
  forall u v Gu Gv Gw, vgradients u Gu -> vgradients v Gv -> vgradients w Gw ->
    bilin np d B u v = bilin np d A u v + rsum nT (fun e => m e * work d lambda mu (Gu e) (Gv e)) /\
    lin np d b' v = lin np d b v + rsum nT (fun e => rho * gravity e g v - m e * work d lambda mu (Gw e) (Gv e)).
(** ... plus one step of the Newmark method, with unknown the change of the acceleration. *)
Definition newmark_weak (mu lambda rho : R) (g : nat -> R) (dt beta : R) (w wv wa : nat -> nat -> R)
    (A : matsp Rcr) (b : list R) (B : matsp Rcr) (b' : list R) : Prop :=
  forall u v Gu Gv Gw, vgradients u Gu -> vgradients v Gv ->
    vgradients (fun p k => w p k + dt * wv p k + / 2 * dt * dt * wa p k) Gw ->
    bilin np d B u v = bilin np d A u v + rsum nT (fun e => rho * vmass e u v + beta * dt * dt * (m e * work d lambda mu (Gu e) (Gv e))) /\
    lin np d b' v = lin np d b v + rsum nT (fun e => rho * gravity e g v - rho * vmass e wa v - m e * work d lambda mu (Gw e) (Gv e)).
(** ... plus one step of the backward Euler method, with unknown the change of the velocity, divided by dt. *)
Definition beuler_weak (mu lambda rho : R) (g : nat -> R) (dt : R) (w wv : nat -> nat -> R)
    (A : matsp Rcr) (b : list R) (B : matsp Rcr) (b' : list R) : Prop :=
  forall u v Gu Gv Gw, vgradients u Gu -> vgradients v Gv -> vgradients (fun p k => w p k + dt * wv p k) Gw ->
    bilin np d B u v = bilin np d A u v + rsum nT (fun e => rho / (dt * dt) * lumped e u v + m e * work d lambda mu (Gu e) (Gv e)) /\
    lin np d b' v = lin np d b v + rsum nT (fun e => rho * gravity e g v - m e * work d lambda mu (Gw e) (Gv e)) / dt.
End Solid.

(** Triangle and tetrahedral meshes side by side. *)
Definition run_static (tet dbg : bool) (A : matsp Rcr) (b : list R) (mu lambda rho : R) (g : nat -> R) (X : list R) (np : nat)
    (T : list nat) (nT : nat) (disp : list R) : option (matsp Rcr * list R) :=
  if tet then MergeLinSys_SolidLinear_Static_MeshTet3D dbg A b mu lambda rho g X np T nT disp
  else MergeLinSys_SolidLinear_Static_MeshTri2D dbg A b mu lambda rho (g 0%nat) (g 1%nat) X np T nT disp.
Definition run_newmark (tet dbg : bool) (A : matsp Rcr) (b : list R) (mu lambda rho : R) (g : nat -> R) (dt beta : R) (X : list R)
    (np : nat) (T : list nat) (nT : nat) (disp velo acc : list R) : option (matsp Rcr * list R) :=
  if tet then MergeLinSys_SolidLinear_NewmarkBeta_MeshTet3D dbg A b mu lambda rho g dt beta X np T nT disp velo acc
  else MergeLinSys_SolidLinear_NewmarkBeta_MeshTri2D dbg A b mu lambda rho (g 0%nat) (g 1%nat) dt beta X np T nT disp velo acc.
Definition solid_input (tet : bool) (X : list R) (np : nat) (T : list nat) (nT : nat) (A : matsp Rcr) (b : list R) : Prop :=
  mesh_ok (ncor tet) np T nT /\ length X = (np * ndim tet)%nat /\ length b = (np * ndim tet)%nat /\
  matrix_ok (ncor tet) np (ndim tet) T nT A /\ (forall e, (e < nT)%nat -> size tet X T e <> 0).

(** Infinitesimal rigid motions: translations plus an antisymmetric matrix times the position. *)
Definition rigid (d : nat) (X : list R) (u : nat -> nat -> R) : Prop :=
  exists (t : nat -> R) (Wm : nat -> nat -> R), (forall a b, Wm a b = - Wm b a) /\
    forall p a, (a < d)%nat -> u p a = t a + rsum d (fun k => Wm a k * cmp d X p k).

(** Points held by the fixed ones: a fixed point is held, and so is the last corner of an element whose other corners are held. *)
Inductive held (nno : nat) (T : list nat) (nT : nat) (fixed : nat -> Prop) : nat -> Prop :=
| held_fixed : forall p, fixed p -> held nno T nT fixed p
| held_elem : forall e i, (e < nT)%nat -> (i < nno)%nat ->
    (forall j, (j < nno)%nat -> j <> i -> held nno T nT fixed (nd nno T e j)) -> held nno T nT fixed (nd nno T e i).

(** Stiffness warping with the same matrix Rm at every point: [unrot Rm u] is Rm^T u; the elastic displacement is measured
    from the rest shape turned by Rm. *)
Definition unrot (Rm : nat -> nat -> R) (u : nat -> nat -> R) : nat -> nat -> R := fun p a => rsum 3 (fun b => Rm b a * u p b).
Definition warped (X : list R) (Rm : nat -> nat -> R) (u : nat -> nat -> R) : nat -> nat -> R :=
  fun p a => vec 3 X p a + u p a - rsum 3 (fun k => Rm a k * vec 3 X p k).
Definition stiffwarp_weak (X : list R) (T : list nat) (nT np : nat) (mu lambda rho : R) (g : nat -> R) (dt : R) (w wv : nat -> nat -> R)
    (Rm : nat -> nat -> R) (A : matsp Rcr) (b : list R) (B : matsp Rcr) (b' : list R) : Prop :=
  forall u v Gu Gv Gw, vgradients true X T nT (unrot Rm u) Gu -> vgradients true X T nT (unrot Rm v) Gv ->
    vgradients true X T nT (unrot Rm (warped X Rm (fun p k => w p k + dt * wv p k))) Gw ->
    bilin np 3 B u v = bilin np 3 A u v + rsum nT (fun e => rho / (dt * dt) * lumped true X T e u v + size true X T e * work 3 lambda mu (Gu e) (Gv e)) /\
    lin np 3 b' v = lin np 3 b v + rsum nT (fun e => rho * gravity true X T e g v - size true X T e * work 3 lambda mu (Gw e) (Gv e)) / dt.
