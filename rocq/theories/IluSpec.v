(** Specification for the incomplete LU factorisation of block matrices. *)
From Coq Require Import List Arith.
Import ListNotations.
From Verif Require Import Imp Alg SpModel SpSpec IluModel.
Open Scope nat_scope.

Section Spec.
Variable K : cring.
(** Entry (a, b) of block c in an array of blocks with d rows and d columns. *)
Definition blk (d : nat) (v : list K) (c a b : nat) : K := nth (c * (d * d) + a * d + b) v rO.
(** Row I of the factorisation: positions [cI I] .. [dI I] - 1 lie left of the diagonal, [dI I] .. [cI (I+1)] - 1 right of it; columns ascend. *)
Definition cI (P : ilu K) (I : nat) : nat := nth I (colInd P) 0.
Definition dI (P : ilu K) (I : nat) : nat := nth I (diaInd P) 0.
Definition cp (P : ilu K) (c : nat) : nat := nth c (rowPtr P) 0.
Definition pattern_ok (P : ilu K) : Prop :=
  length (colInd P) = nblk P + 1 /\ length (diaInd P) = nblk P /\ cI P 0 = 0 /\ cI P (nblk P) = length (rowPtr P) /\
  (forall I, I < nblk P -> cI P I <= dI P I <= cI P (S I)) /\
  (forall I c, I < nblk P -> cI P I <= c < dI P I -> cp P c < I) /\
  (forall I c, I < nblk P -> dI P I <= c < cI P (S I) -> I < cp P c < nblk P) /\
  (forall I c c', I < nblk P -> cI P I <= c -> c < c' -> c' < cI P (S I) -> cp P c < cp P c').
Definition values_ok (P : ilu K) : Prop :=
  length (valCrs P) = length (rowPtr P) * (ndim P * ndim P) /\ length (valDia P) = nblk P * (ndim P * ndim P).
(** Block (I, J) is stored. *)
Definition stored (P : ilu K) (I J : nat) : Prop := exists c, cI P I <= c < cI P (S I) /\ cp P c = J.
(** No elimination step creates a block outside the stored ones. *)
Definition fill_closed (P : ilu K) : Prop :=
  forall I k J, I < nblk P -> k < I -> k < J -> J <> I -> stored P I k -> stored P k J -> stored P I J.

(** The strictly lower and upper block matrices in storage, as dense matrices. *)
Definition Low (P : ilu K) (I a J b : nat) : K :=
  bigsum (seq (cI P I) (dI P I - cI P I)) (fun c => if cp P c =? J then blk (ndim P) (valCrs P) c a b else rO).
Definition Upp (P : ilu K) (I a J b : nat) : K :=
  bigsum (seq (dI P I) (cI P (S I) - dI P I)) (fun c => if cp P c =? J then blk (ndim P) (valCrs P) c a b else rO).
Definition delta (i j : nat) : K := if i =? j then rI else rO.
(** Entry of (L + D) (1 + U), D block diagonal. *)
Definition LDU (P : ilu K) (D : nat -> nat -> nat -> K) (I a J b : nat) : K :=
  sumn (nblk P) (fun k => sumn (ndim P) (fun e =>
    rmul (radd (Low P I a k e) (if I =? k then D I a e else rO))
         (radd (if k =? J then delta e b else rO) (Upp P k e J b)))).
(** The diagonal array holds the inverses of the blocks of D. *)
Definition inverts (P : ilu K) (D : nat -> nat -> nat -> K) : Prop :=
  forall I a b, I < nblk P -> a < ndim P -> b < ndim P -> sumn (ndim P) (fun e => rmul (D I a e) (blk (ndim P) (valDia P) I e b)) = delta a b.
(** The rows of a block matrix: no entry on the diagonal, none twice. *)
Definition simple_rows (m : matsp K) : Prop :=
  forall I, I < nrowblk m -> NoDup (map (rp m) (row_range m I)) /\ ~ In I (map (rp m) (row_range m I)).
(** A dense block matrix applied to a vector, row a of block row I. *)
Definition mulv (P : ilu K) (M : nat -> nat -> nat -> nat -> K) (x : list K) (I a : nat) : K :=
  sumn (nblk P) (fun J => sumn (ndim P) (fun b => rmul (M I a J b) (nth (J * ndim P + b) x rO))).
(** L + D and 1 + U *)
Definition LplusD (P : ilu K) (D : nat -> nat -> nat -> K) (I a J b : nat) : K := radd (Low P I a J b) (if I =? J then D I a b else rO).
Definition OneplusU (P : ilu K) (I a J b : nat) : K := radd (if I =? J then delta a b else rO) (Upp P I a J b).
(** Only the numbers differ. *)
Definition same_shape (P P' : ilu K) : Prop :=
  nblk P' = nblk P /\ ndim P' = ndim P /\ colInd P' = colInd P /\ rowPtr P' = rowPtr P /\ diaInd P' = diaInd P.
(** (L + D) (1 + U), read off P' and D, has the numbers of P on the diagonal and at every stored block; it vanishes elsewhere if no fill-in is dropped. *)
Definition factors (P P' : ilu K) (D : nat -> nat -> nat -> K) : Prop :=
  (forall I a b, I < nblk P -> a < ndim P -> b < ndim P -> LDU P' D I a I b = blk (ndim P) (valDia P) I a b) /\
  (forall I c a b, I < nblk P -> cI P I <= c < cI P (S I) -> a < ndim P -> b < ndim P -> LDU P' D I a (cp P c) b = blk (ndim P) (valCrs P) c a b) /\
  (fill_closed P -> forall I J a b, I < nblk P -> J < nblk P -> a < ndim P -> b < ndim P -> I <> J -> ~ stored P I J -> LDU P' D I a J b = rO).
(** The fill levels of the complete elimination cut off at a level ([None]: no limit): blocks of the matrix have level 0; eliminating with row k
    makes of blocks (I, k) and (k, J), both below the limit, a block (I, J) one level above the larger one. *)
Definition below (v : nat) (lev_fill : option nat) : Prop := match lev_fill with None => True | Some l => v < l end.
Inductive fill_level (m : matsp K) (lev_fill : option nat) : nat -> nat -> nat -> Prop :=
| fl_block : forall I J, I < nrowblk m -> in_pattern m I J -> fill_level m lev_fill I J 0
| fl_fill : forall I k J v w, I < nrowblk m -> k < I -> k < J -> J <> I -> fill_level m lev_fill I k v -> fill_level m lev_fill k J w -> below v lev_fill -> below w lev_fill ->
    fill_level m lev_fill I J (Nat.max v w + 1).
End Spec.
Arguments blk {K}. Arguments cI {K}. Arguments dI {K}. Arguments cp {K}. Arguments pattern_ok {K}. Arguments values_ok {K}. Arguments stored {K}. Arguments fill_closed {K}.
Arguments Low {K}. Arguments Upp {K}. Arguments delta {K}. Arguments LDU {K}. Arguments inverts {K}. Arguments simple_rows {K}.
Arguments mulv {K}. Arguments LplusD {K}. Arguments OneplusU {K}. Arguments same_shape {K}. Arguments factors {K}. Arguments fill_level {K}.
