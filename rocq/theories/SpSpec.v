(** What a block sparse matrix denotes: a dense matrix. *)
From Coq Require Import List Arith ZArith.
Import ListNotations.
From Verif Require Import Imp Alg SpModel.

Section Spec.
Variable K : cring.

(** Row I of the compressed pattern occupies the positions [ci A I], ..., [ci A (I+1)] - 1 of row_ptr / val_crs. *)
Definition ci (A : matsp K) (I : nat) : nat := nth I (col_ind A) 0.
Definition rp (A : matsp K) (c : nat) : nat := nth c (row_ptr A) 0.
Definition row_range (A : matsp K) (I : nat) : list nat := seq (ci A I) (ci A (S I) - ci A I).
(** Number (a,b) of stored block c, of diagonal block I. *)
Definition crs (A : matsp K) (c a b : nat) : K := nth (c * (nrowdim A * ncoldim A) + a * ncoldim A + b) (val_crs A) rO.
Definition dia (A : matsp K) (I a b : nat) : K := nth (I * (nrowdim A * ncoldim A) + a * ncoldim A + b) (val_dia A) rO.

(** Entry of the dense matrix in block row I, row a of the block, block column J, column b of the block: the sum of all
    stored blocks at position (I,J), the diagonal array contributing to I = J. *)
Definition dense (A : matsp K) (I a J b : nat) : K :=
  (bigsum (row_range A I) (fun c => if Nat.eqb (rp A c) J then crs A c a b else 0)
   + (if Nat.eqb I J then dia A I a b else 0))%K.

(** Well-formed storage with a diagonal array. *)
Definition wf (A : matsp K) : Prop :=
  length (col_ind A) = nrowblk A + 1 /\
  (forall I, I < nrowblk A -> ci A I <= ci A (S I)) /\
  ci A (nrowblk A) = length (row_ptr A) /\
  (forall c, c < length (row_ptr A) -> rp A c < ncolblk A) /\
  length (val_crs A) = length (row_ptr A) * (nrowdim A * ncoldim A) /\
  length (val_dia A) = nrowblk A * (nrowdim A * ncoldim A) /\
  nrowblk A <= ncolblk A.
Definition square (A : matsp K) : Prop := nrowblk A = ncolblk A /\ nrowdim A = ncoldim A.

(** (A x)(I,a) and (A^T x)(J,b). *)
Definition Ax (A : matsp K) (x : list K) (I a : nat) : K :=
  sumn (ncolblk A) (fun J => sumn (ncoldim A) (fun b => rmul (dense A I a J b) (nth (J * ncoldim A + b) x rO))).
Definition ATx (A : matsp K) (x : list K) (J b : nat) : K :=
  sumn (nrowblk A) (fun I => sumn (nrowdim A) (fun a => rmul (dense A I a J b) (nth (I * nrowdim A + a) x rO))).

(** Same shape and pattern; only the numbers may differ. *)
Definition same_pattern (A B : matsp K) : Prop :=
  nrowblk B = nrowblk A /\ ncolblk B = ncolblk A /\ nrowdim B = nrowdim A /\ ncoldim B = ncoldim A /\
  col_ind B = col_ind A /\ row_ptr B = row_ptr A.

(** Block (I,J) is stored in the pattern. *)
Definition in_pattern (A : matsp K) (I J : nat) : Prop := exists c, In c (row_range A I) /\ rp A c = J.
End Spec.
Arguments ci {K}. Arguments rp {K}. Arguments row_range {K}. Arguments crs {K}. Arguments dia {K}. Arguments dense {K}.
Arguments wf {K}. Arguments square {K}. Arguments Ax {K}. Arguments ATx {K}. Arguments same_pattern {K}. Arguments in_pattern {K}.
