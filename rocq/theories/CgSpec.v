(** Specification of linear solvers on block sparse matrices. *)
From Coq Require Import List Arith ZArith.
Import ListNotations.
From Verif Require Import Imp Alg SpModel SpSpec.

Section Spec.
Variable K : cring.
(** Number of unknowns. *)
Definition ndof (A : matsp K) : nat := nrowblk A * nrowdim A.
(** Inner product of two vectors. *)
Definition inner (x y : list K) : K := sumn (length x) (fun k => rmul (nth k x rO) (nth k y rO)).
(** [r] is the residual b - A x. *)
Definition is_residual (A : matsp K) (b x r : list K) : Prop :=
  forall I a, I < nrowblk A -> a < nrowdim A ->
    nth (I * nrowdim A + a) r rO = rsub (nth (I * nrowdim A + a) b rO) (Ax A x I a).
(** The vector A x. *)
Definition mulv (A : matsp K) (x : list K) : list K :=
  map (fun k => Ax A x (k / nrowdim A) (k mod nrowdim A)) (seq 0 (ndof A)).
Definition symmetric (A : matsp K) : Prop := forall I a J b, I < nrowblk A -> a < nrowdim A -> J < nrowblk A -> b < nrowdim A ->
  dense A I a J b = dense A J b I a.
(** x.(A x) vanishes only for x = 0; x.x vanishes only for x = 0. *)
Definition definite (A : matsp K) : Prop := forall x, length x = ndof A -> inner x (mulv A x) = rO -> x = repeat rO (ndof A).
Definition anisotropic (n : nat) : Prop := forall x : list K, length x = n -> inner x x = rO -> x = repeat rO n.
(** The preconditioner multiplies by the matrix [P]. *)
Definition is_linear (n : nat) (P : nat -> nat -> K) (prec : list K -> option (list K)) : Prop :=
  forall r, length r = n -> prec r = Some (map (fun k => sumn n (fun l => rmul (P k l) (nth l r rO))) (seq 0 n)).
End Spec.
Arguments ndof {K}. Arguments inner {K}. Arguments is_residual {K}. Arguments mulv {K}. Arguments symmetric {K}.
Arguments definite {K}. Arguments is_linear {K}.
