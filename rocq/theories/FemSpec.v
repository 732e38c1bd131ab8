(** Vocabulary for the finite element theorems: sums, meshes, gradients of piecewise linear fields, areas and volumes, the
    quadratic form of an assembled matrix.  Nothing here uses the shape functions or element matrices of the model. *)
From Coq Require Import List Arith Reals.
Import ListNotations.
From Verif Require Import Imp Alg SpModel SpSpec FemModel.
Local Open Scope R_scope.

(** f 0 + ... + f (n-1). *)
Definition rsum (n : nat) (f : nat -> R) : R := fold_right (fun i s => f i + s) 0 (seq 0 n).

(** Corner i of element e, a point number. *)
Definition nd (nno : nat) (aEl : list nat) (e i : nat) : nat := nth (e * nno + i) aEl 0%nat.
(** Component k of point p in an array with d numbers per point. *)
Definition cmp (d : nat) (X : list R) (p k : nat) : R := nth (p * d + k) X 0.

(** A mesh of [nEl] elements with [nno] different corners each, on the points 0..np-1. *)
Definition mesh_ok (nno np : nat) (aEl : list nat) (nEl : nat) : Prop :=
  (nEl * nno <= length aEl)%nat /\
  (forall e i, (e < nEl)%nat -> (i < nno)%nat -> (nd nno aEl e i < np)%nat) /\
  (forall e i j, (e < nEl)%nat -> (i < nno)%nat -> (j < nno)%nat -> nd nno aEl e i = nd nno aEl e j -> i = j).
(** A well-formed matrix with a d x d block for every pair of points that the mesh connects. *)
Definition matrix_ok (nno np d : nat) (aEl : list nat) (nEl : nat) (A : matsp Rcr) : Prop :=
  wf A /\ nrowblk A = np /\ ncolblk A = np /\ nrowdim A = d /\ ncoldim A = d /\
  (forall e i j, (e < nEl)%nat -> (i < nno)%nat -> (j < nno)%nat -> i <> j -> in_pattern A (nd nno aEl e i) (nd nno aEl e j)).

(** [g] is the gradient of the affine function that takes the value [u i] at corner i, whose coordinates are [c i]. *)
Definition is_grad (nno dim : nat) (c : nat -> nat -> R) (u : nat -> R) (g : nat -> R) : Prop :=
  forall i j, (i < nno)%nat -> (j < nno)%nat -> rsum dim (fun k => g k * (c j k - c i k)) = u j - u i.
(** [g e] is the gradient on element e of the piecewise linear field with the value [u p] at point p. *)
Definition grad_on (nno dim : nat) (X : list R) (aEl : list nat) (nEl : nat) (u : nat -> R) (g : nat -> nat -> R) : Prop :=
  forall e, (e < nEl)%nat -> is_grad nno dim (fun i => cmp dim X (nd nno aEl e i)) (fun i => u (nd nno aEl e i)) (g e).
Definition gdot (dim : nat) (g h : nat -> R) : R := rsum dim (fun k => g k * h k).

(** Signed area of triangle e, signed volume of tetrahedron e. *)
Definition det2 (a b : nat -> R) : R := a 0%nat * b 1%nat - a 1%nat * b 0%nat.
Definition det3 (a b c : nat -> R) : R :=
  a 0%nat * (b 1%nat * c 2%nat - b 2%nat * c 1%nat) + a 1%nat * (b 2%nat * c 0%nat - b 0%nat * c 2%nat)
  + a 2%nat * (b 0%nat * c 1%nat - b 1%nat * c 0%nat).
Definition side (nno dim : nat) (X : list R) (aEl : list nat) (e i : nat) : nat -> R :=
  fun k => cmp dim X (nd nno aEl e i) k - cmp dim X (nd nno aEl e 0) k.
Definition area (X : list R) (aTri : list nat) (e : nat) : R := det2 (side 3 2 X aTri e 1) (side 3 2 X aTri e 2) / 2.
Definition volume (X : list R) (aTet : list nat) (e : nat) : R :=
  det3 (side 4 3 X aTet e 1) (side 4 3 X aTet e 2) (side 4 3 X aTet e 3) / 6.

(** Entry (I,a;J,b) of the matrix that A stores, as a real number. *)
Definition ent (A : matsp Rcr) (I a J b : nat) : R := dense A I a J b.
(** v^T A u and v . b for fields with d components per point. *)
Definition bilin (np d : nat) (A : matsp Rcr) (u v : nat -> nat -> R) : R :=
  rsum np (fun I => rsum d (fun a => rsum np (fun J => rsum d (fun b => v I a * ent A I a J b * u J b)))).
Definition lin (np d : nat) (b : list R) (v : nat -> nat -> R) : R :=
  rsum np (fun I => rsum d (fun a => v I a * cmp d b I a)).

(** Points p and q are connected by elements. *)
Inductive joined (nno : nat) (aEl : list nat) (nEl : nat) (p : nat) : nat -> Prop :=
| joined_refl : joined nno aEl nEl p p
| joined_step : forall q e i j, joined nno aEl nEl p q -> (e < nEl)%nat -> (i < nno)%nat -> (j < nno)%nat ->
    nd nno aEl e i = q -> joined nno aEl nEl p (nd nno aEl e j).

(** Triangle meshes ([tet] = false) and tetrahedral meshes ([tet] = true) side by side. *)
Definition ncor (tet : bool) : nat := if tet then 4%nat else 3%nat.
Definition ndim (tet : bool) : nat := if tet then 3%nat else 2%nat.
Definition size (tet : bool) (X : list R) (T : list nat) (e : nat) : R := if tet then volume X T e else area X T e.
Definition run_poisson (tet : bool) (dbg : bool) (A : matsp Rcr) (b : list R) (alpha source : R) (X : list R) (np : nat)
    (T : list nat) (nT : nat) (val : list R) : option (matsp Rcr * list R) :=
  if tet then MergeLinSys_Poission_MeshTet3D dbg A b alpha source X np T nT val
  else MergeLinSys_Poission_MeshTri2D dbg A b alpha source X np T nT val.
Definition run_diffusion (tet : bool) (dbg : bool) (A : matsp Rcr) (b : list R) (alpha rho source dt gamma : R) (X : list R)
    (np : nat) (T : list nat) (nT : nat) (val velo : list R) : option (matsp Rcr * list R) :=
  if tet then MergeLinSys_Diffusion_MeshTet3D dbg A b alpha rho source dt gamma X np T nT val velo
  else MergeLinSys_Diffusion_MeshTri2D dbg A b alpha rho source dt gamma X np T nT val velo.

(** A scalar field as a field with one component; the values stored in an array. *)
Definition sc (u : nat -> R) : nat -> nat -> R := fun p _ => u p.
Definition arr (l : list R) : nat -> R := fun p => nth p l 0.

Section Weak.
Variables (tet : bool) (X : list R) (T : list nat) (nT np : nat).
Notation N := (nd (ncor tet) T).
Notation m := (size tet X T).
(** Mean of the corner values; the integral over element e of the product of two linear fields. *)
Definition mean (e : nat) (v : nat -> R) : R := rsum (ncor tet) (fun i => v (N e i)) / INR (ncor tet).
Definition mass (e : nat) (u v : nat -> R) : R :=
  m e * (rsum (ncor tet) (fun i => u (N e i)) * rsum (ncor tet) (fun i => v (N e i)) + rsum (ncor tet) (fun i => u (N e i) * v (N e i)))
  / (INR (ncor tet) * INR (S (ncor tet))).
Definition gradients (u : nat -> R) (g : nat -> nat -> R) : Prop := grad_on (ncor tet) (ndim tet) X T nT u g.

(** The system (B,b') is (A,b) plus the weak form of  - div(alpha grad u) = source  at the field w:
    v^T K u = sum of alpha |e| grad u . grad v,   v . r = sum of source |e| mean(v) - alpha |e| grad w . grad v. *)
Definition poisson_weak (alpha source : R) (w : nat -> R) (A : matsp Rcr) (b : list R) (B : matsp Rcr) (b' : list R) : Prop :=
  forall u v gu gv gw, gradients u gu -> gradients v gv -> gradients w gw ->
    bilin np 1 B (sc u) (sc v) = bilin np 1 A (sc u) (sc v) + rsum nT (fun e => alpha * m e * gdot (ndim tet) (gu e) (gv e)) /\
    lin np 1 b' (sc v) = lin np 1 b (sc v)
      + rsum nT (fun e => source * m e * mean e v - alpha * m e * gdot (ndim tet) (gw e) (gv e)).
(** One step of  rho dw/dt - div(alpha grad w) = source  with unknown the change of velocity. *)
Definition diffusion_weak (alpha rho source dt gamma : R) (w wv : nat -> R) (A : matsp Rcr) (b : list R) (B : matsp Rcr) (b' : list R) : Prop :=
  forall u v gu gv gw gwv, gradients u gu -> gradients v gv -> gradients w gw -> gradients wv gwv ->
    bilin np 1 B (sc u) (sc v) = bilin np 1 A (sc u) (sc v)
      + rsum nT (fun e => rho * mass e u v + gamma * dt * (alpha * m e * gdot (ndim tet) (gu e) (gv e))) /\
    lin np 1 b' (sc v) = lin np 1 b (sc v)
      + rsum nT (fun e => source * m e * mean e v
          - alpha * m e * gdot (ndim tet) (fun k => gw e k + dt * gwv e k) (gv e) - rho * mass e wv v).
End Weak.

(** Number of (element, corner) pairs with a given property. *)
Definition count (nno nT : nat) (P : nat -> nat -> bool) : R := rsum nT (fun e => rsum nno (fun i => if P e i then 1 else 0)).
(** Point p is interior to a triangle mesh: around p, every point q follows p in as many triangles as it precedes p. *)
Definition interior2 (T : list nat) (nT p : nat) : Prop := forall q,
  count 3 nT (fun e i => ((nd 3 T e i =? p) && (nd 3 T e ((i + 1) mod 3) =? q))%nat%bool) =
  count 3 nT (fun e i => ((nd 3 T e i =? p) && (nd 3 T e ((i + 2) mod 3) =? q))%nat%bool).
(** The face of a tetrahedron opposite to corner i, as a directed cycle; point p is interior to a tetrahedral mesh: the
    faces opposite to p run along every edge (q,r) as often in one direction as in the other. *)
Definition opp (i m : nat) : nat := (nth m (nth i [[1; 3; 2]; [0; 2; 3]; [0; 3; 1]; [0; 1; 2]] []) 0)%nat.
Definition around (T : list nat) (nT p q r : nat) : R := rsum 3 (fun m => count 4 nT (fun e i =>
  ((nd 4 T e i =? p) && ((nd 4 T e (opp i m) =? q) && (nd 4 T e (opp i ((m + 1) mod 3)) =? r)))%nat%bool)).
Definition interior3 (T : list nat) (nT p : nat) : Prop := forall q r, around T nT p q r = around T nT p r q.
