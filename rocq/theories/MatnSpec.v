(** Specification vocabulary for the small dense inverses and the banded solvers.  Independent of the proofs. *)
From Coq Require Import List Arith Bool ZArith.
Import ListNotations.
From Verif Require Import Imp Alg MatnModel.

Section S.
Variable F : pfield.
Notation K := (pr F).
Local Open Scope K_scope.

(** Entry (a,b) of the n*n row-major matrix that starts at offset [o] of [v]. *)
Definition ent (n : nat) (v : list K) (o a b : nat) : K := nth (o + a * n + b)%nat v 0.

(** [M N = 1] and [N M = 1], entry by entry. *)
Definition inverse_pair (n : nat) (M N : nat -> nat -> K) : Prop :=
  (forall a c, a < n -> c < n -> sumn n (fun b => M a b * N b c) = if (a =? c)%nat then 1 else 0) /\
  (forall a c, a < n -> c < n -> sumn n (fun b => N a b * M b c) = if (a =? c)%nat then 1 else 0).

(** [v'] differs from [v] only in the block at [o]. *)
Definition only_block (n : nat) (v v' : list K) (o : nat) : Prop :=
  length v' = length v /\ forall k, (k < o \/ o + n * n <= k)%nat -> nth k v' 0 = nth k v 0.

(** The pivot block [P] is one that Inverse_Matrix inverts: for n = 1 and n = 3 the code makes no test, so the number it
    divides by must not be small; for every other n the routine itself reports. *)
Definition pivot_ok (n : nat) (P : list K) (reported : bool) : Prop :=
  match n with
  | S O => small (nth 0%nat P 0) = false
  | S (S (S O)) => small (det3 (fun i => nth i P 0)) = false
  | _ => reported = true
  end.

(** Scalar entry (a,b) of block (i,j) of a banded matrix as read through GetValuePointer; 0 where that is nullptr. *)
Definition band_entry (ptr : Z -> Z -> option nat) (n : nat) (v : list K) (i j a b : nat) : K :=
  match ptr (Z.of_nat i) (Z.of_nat j) with Some p => nth (p + a * n + b)%nat v 0 | None => 0 end.
Definition tri_entry (n nblk : nat) := band_entry (tri_ptr n nblk) n.
Definition penta_entry (n nblk : nat) := band_entry (penta_ptr n nblk) n.

(** Row (i,a) of A times x. *)
Definition row_times (entry : nat -> nat -> nat -> nat -> K) (n nblk : nat) (x : list K) (i a : nat) : K :=
  sumn nblk (fun j => sumn n (fun b => entry i j a b * nth (j * n + b)%nat x 0)).
End S.
Arguments ent {F}. Arguments inverse_pair {F}. Arguments only_block {F}. Arguments pivot_ok {F}.
Arguments band_entry {F}. Arguments tri_entry {F}. Arguments penta_entry {F}. Arguments row_times {F}.
