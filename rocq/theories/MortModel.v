(** Model of the Morton-code part of /repo/include/delfem2/srch_bvh.cpp: 32-bit words are [N] reduced modulo 2^32. *)
From Coq Require Import List Arith Bool ZArith NArith QArith Qround Lia.
Import ListNotations.
From Verif Require Import Imp.
Close Scope Q_scope. Open Scope nat_scope.

Definition w32 (x : N) : N := (x mod 2 ^ 32)%N.

(** srch_bvh.cpp:208-214 expandBits. *)
Definition expandBits (v : N) : N :=
  let v := N.land (w32 (v * 65537)) 4278190335 in   (* 0x00010001, 0xFF0000FF *)
  let v := N.land (w32 (v * 257)) 251719695 in      (* 0x00000101, 0x0F00F00F *)
  let v := N.land (w32 (v * 17)) 3272356035 in      (* 0x00000011, 0xC30C30C3 *)
  let v := N.land (w32 (v * 5)) 1227133513 in       (* 0x00000005, 0x49249249 *)
  v.

(** srch_bvh.cpp:253-266 nbits_leading_zero.  [y] is the 32-bit pattern of the int32_t; y < 0 is its bit 31; [y <<= 1] drops
    the top bit. *)
Definition nbits_leading_zero (x : N) : option nat :=
  if (x =? 0)%N then Some 32 else
  '(n, y) <- whilef 32 (fun s => negb (N.testbit (snd s) 31)) (fun s => let '(n, y) := s in Some (n + 1, w32 (y * 2))) (0, x) ;;
  Some n.

(** srch_bvh.cpp:287-299 MortonCode: conversion of the clamped coordinate to uint32 truncates.  Coordinates are rationals: every
    finite float or double is one, scaling by 1024 and clamping are exact in binary floating point. *)
Definition fmin (a b : Q) : Q := if Qle_bool a b then a else b.
Definition fmax (a b : Q) : Q := if Qle_bool a b then b else a.
Definition quant (x : Q) : N := Z.to_N (Qfloor (fmin (fmax (x * 1024)%Q 0%Q) 1023%Q)).
Definition MortonCode (x y z : Q) : N :=
  w32 (w32 (w32 (expandBits (quant x) * 4) + w32 (expandBits (quant y) * 2)) + expandBits (quant z)).

(** srch_bvh.cpp:192-203 delta; -1 outside the array. *)
Definition delta (mc : list N) (i : nat) (j : Z) : option Z :=
  if ((j <? 0) || (j >=? Z.of_nat (length mc)))%Z then Some (-1)%Z else
  a <- vget mc i ;; b <- vget mc (Z.to_nat j) ;;
  n <- nbits_leading_zero (N.lxor a b) ;; Some (Z.of_nat n).

(** srch_bvh.cpp:305-363 MortonCode_DeterminRange.  The ints lmax, l, t, and the positions imc + l*d are unbounded integers. *)
Definition DeterminRange (mc : list N) (imc : nat) : option (nat * nat) :=
  let nMC := length mc in
  assertb (0 <? nMC) ;;;
  if imc =? 0 then Some (0, nMC - 1) else
  if imc =? nMC - 1 then Some (nMC - 1, nMC - 1) else
  mc0 <- vget mc (imc - 1) ;; mc1 <- vget mc (imc + 0) ;; mc2 <- vget mc (imc + 1) ;;
  if ((mc0 =? mc1) && (mc1 =? mc2))%N then
    jmc <- forb (imc + 1) nMC (fun jmc _ => c <- vget mc jmc ;; if (c =? mc1)%N then Some (jmc + 1, false) else Some (jmc, true)) (imc + 1) ;;
    Some (imc, jmc - 1)
  else
  let i := Z.of_nat imc in
  dp <- delta mc imc (i + 1) ;; dm <- delta mc imc (i - 1) ;;
  let d := (if dp - dm >? 0 then 1 else -1)%Z in
  delta_min <- delta mc imc (i - d) ;;
  '(lmax, _) <- loopf (S nMC) (fun s =>
      let '(lmax, _) := s in
      dd <- delta mc imc (i + Z.of_nat lmax * d) ;;
      if (dd >? delta_min)%Z then Some ((lmax * 2, tt), false) else Some ((lmax, tt), true)) (2, tt) ;;
  '(l, t) <- whilef lmax (fun s => 1 <=? snd s) (fun s =>
      let '(l, t) := s in
      dd <- delta mc imc (i + Z.of_nat (l + t) * d) ;;
      Some ((if (dd >? delta_min)%Z then l + t else l), t / 2)) (0, lmax / 2) ;;
  let j := Z.to_nat (i + Z.of_nat l * d) in
  if imc <=? j then Some (imc, j) else Some (j, imc).

(** srch_bvh.cpp:365-393 MortonCode_FindSplit; [None] inside is UINT_MAX. *)
Definition FindSplit (mc : list N) (first last : nat) : option (option nat) :=
  if first =? last then Some None else
  mcStart <- vget mc first ;; mcLast <- vget mc last ;;
  nbitcommon0 <- nbits_leading_zero (N.lxor mcStart mcLast) ;;
  if nbitcommon0 =? 32 then Some (Some first) else
  '(split, _) <- whilef (last - first) (fun s => 1 <? snd s) (fun s =>
     let '(split, step) := s in
     let step := (step + 1) / 2 in
     let inew := split + step in
     if last <=? inew then Some (split, step) else
     c <- vget mc inew ;;
     nbitcommon1 <- nbits_leading_zero (N.lxor mcStart c) ;;
     Some ((if nbitcommon0 <? nbitcommon1 then inew else split), step)) (first, last - first) ;;
  Some (Some split).

(** srch_bvh.h:30-35 CNodeBVH2; [None] is UINT_MAX. *)
Record bnode := mkB { iparent : option nat; ichild0 : option nat; ichild1 : option nat }.
Definition set_parent (p : option nat) (b : bnode) : bnode := mkB p (ichild0 b) (ichild1 b).
Definition set_child0 (c : option nat) (b : bnode) : bnode := mkB (iparent b) c (ichild1 b).
Definition set_child1 (c : option nat) (b : bnode) : bnode := mkB (iparent b) (ichild0 b) c.
(** vector::resize value-initialises a node: all members 0. *)
Definition bnode0 : bnode := mkB (Some 0) (Some 0) (Some 0).

(** srch_bvh.cpp:443-481 BVHTopology_Morton. *)
Definition BVHTopology_Morton (nodes : list bnode) (objs : list nat) (mc : list N) : option (list bnode) :=
  assertb (length objs =? length mc) ;;;
  assertb (negb (length mc =? 0)) ;;;
  let nodes := vresize bnode0 nodes (length mc * 2 - 1) in
  nodes <- vmod nodes 0 (set_parent None) ;;
  let nni := length mc - 1 in
  forn 0 nni (fun ini nodes =>
    '(first, second) <- DeterminRange mc ini ;;
    isplit <- FindSplit mc first second ;;
    match isplit with
    | None => None
    | Some isplit =>
      nodes <- (if first =? isplit then
          let inlA := nni + isplit in
          nodes <- vmod nodes ini (set_child0 (Some inlA)) ;;
          nodes <- vmod nodes inlA (set_parent (Some ini)) ;;
          o <- vget objs isplit ;;
          nodes <- vmod nodes inlA (set_child0 (Some o)) ;;
          vmod nodes inlA (set_child1 None)
        else
          let iniA := isplit in
          nodes <- vmod nodes ini (set_child0 (Some iniA)) ;;
          vmod nodes iniA (set_parent (Some ini))) ;;
      (if second =? isplit + 1 then
          let inlB := nni + isplit + 1 in
          nodes <- vmod nodes ini (set_child1 (Some inlB)) ;;
          nodes <- vmod nodes inlB (set_parent (Some ini)) ;;
          o <- vget objs (isplit + 1) ;;
          nodes <- vmod nodes inlB (set_child0 (Some o)) ;;
          vmod nodes inlB (set_child1 None)
        else
          let iniB := isplit + 1 in
          nodes <- vmod nodes ini (set_child1 (Some iniB)) ;;
          vmod nodes iniB (set_parent (Some ini)))
    end) nodes.
