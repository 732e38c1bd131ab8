(** Model of the beam of /repo/include/delfem2/fem_beam2.h and of /repo/include/delfem2/kinetic_damping.h.

    Numbers are reals; a division by zero is None.  Arrays with fixed sizes are functions of their indices. *)
From Coq Require Import List Arith Bool Reals.
Import ListNotations.
From Verif Require Import Imp PrModel.
Open Scope R_scope.

Definition sum3 (f : nat -> R) : R := 0 + f 0%nat + f 1%nat + f 2%nat.
(** fem_beam2.h:21-44: the matrix in the frame of the beam, with the indices of the ends and of the freedoms: along, across, angle *)
Definition eC (EI AE eLen : R) (n m i j : nat) : R :=
  let tmp1 := EI / (eLen * eLen * eLen) in
  let tmp2 := AE / eLen in
  match n, m, i, j with
  | O, O, O, O | S O, S O, O, O => tmp2
  | S O, O, O, O | O, S O, O, O => - tmp2
  | O, O, S O, S O | S O, S O, S O, S O => tmp1 * 12
  | S O, O, S O, S O | O, S O, S O, S O => - tmp1 * 12
  | O, O, S O, S (S O) | O, O, S (S O), S O | S O, O, S (S O), S O | O, S O, S O, S (S O) => tmp1 * eLen * 6
  | O, S O, S (S O), S O | S O, O, S O, S (S O) | S O, S O, S O, S (S O) | S O, S O, S (S O), S O => - tmp1 * eLen * 6
  | O, O, S (S O), S (S O) | S O, S O, S (S O), S (S O) => tmp1 * eLen * eLen * 4
  | S O, O, S (S O), S (S O) | O, S O, S (S O), S (S O) => tmp1 * eLen * eLen * 2
  | _, _, _, _ => 0
  end.
(** fem_beam2.h:46-54 *)
Definition eR (cs0 cs1 : R) (i j : nat) : R :=
  match i, j with
  | O, O => cs0 | O, S O => - cs1 | S O, O => cs1 | S O, S O => cs0 | S (S O), S (S O) => 1 | _, _ => 0
  end.
(** fem_beam2.h:10-76; dW and ddW *)
Definition dWddW_Beam2 (EI AE : R) (x : nat -> nat -> R) (u : nat -> nat -> R) : option ((nat -> nat -> R) * (nat -> nat -> nat -> nat -> R)) :=
  let eLen := sqrt ((x 1%nat 0%nat - x 0%nat 0%nat) * (x 1%nat 0%nat - x 0%nat 0%nat) + (x 1%nat 1%nat - x 0%nat 1%nat) * (x 1%nat 1%nat - x 0%nat 1%nat)) in
  if eqR eLen 0 then None else
  let inv_eLen := 1 / eLen in
  let c := eR ((x 1%nat 0%nat - x 0%nat 0%nat) * inv_eLen) ((x 1%nat 1%nat - x 0%nat 1%nat) * inv_eLen) in
  let ddW := fun p q i j => sum3 (fun n => sum3 (fun m => c i n * eC EI AE eLen p q n m * c j m)) in
  let dW := fun n i => ddW n 0%nat i 0%nat * u 0%nat 0%nat + ddW n 0%nat i 1%nat * u 0%nat 1%nat + ddW n 0%nat i 2%nat * u 0%nat 2%nat
    + ddW n 1%nat i 0%nat * u 1%nat 0%nat + ddW n 1%nat i 1%nat * u 1%nat 1%nat + ddW n 1%nat i 2%nat * u 1%nat 2%nat in
  Some (dW, ddW).

(** kinetic_damping.h:12-23, with np = aUVW.size() / 3 as its only caller has it *)
Definition EnergyKinetic (aUVW : list R) (np : nat) : option R :=
  forn 0 np (fun ip E =>
    u0 <- vget aUVW (ip * 3 + 0) ;; v0 <- vget aUVW (ip * 3 + 1) ;; w0 <- vget aUVW (ip * 3 + 2) ;;
    Some (E + (u0 * u0 + v0 * v0 + w0 * w0))) 0.
(** kinetic_damping.h:25-39: the new aEnergy and aUVW *)
Definition Damp (aEnergy aUVW : list R) : option (list R * list R) :=
  e <- EnergyKinetic aUVW (length aUVW / 3) ;;
  let aEnergy := aEnergy ++ [e] in
  if (3 <? length aEnergy)%nat then
    let aEnergy := tl aEnergy in
    e0 <- vget aEnergy 0 ;; e1 <- vget aEnergy 1 ;; e2 <- vget aEnergy 2 ;;
    let g0 := e1 - e0 in let g1 := e2 - e1 in
    if ltR 0 g0 && ltR g1 0 then Some (aEnergy, repeat 0 (length aUVW)) else Some (aEnergy, aUVW)
  else Some (aEnergy, aUVW).
