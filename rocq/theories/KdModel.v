(** Model of /repo/include/delfem2/srch_kdtree.h.  Real numbers stand for the scalar type and for double.  A null pointer is [Null]; the parent pointers, which nothing reads, are left out. *)
From Coq Require Import List Arith Bool Reals.
Import ListNotations.
From Verif Require Import Imp.
Open Scope R_scope.

Definition vec := (R * R * R)%type.
Definition co (k : nat) (p : vec) : R := match k with 0%nat => fst (fst p) | 1%nat => snd (fst p) | _ => snd p end.
Definition ltR (a b : R) : bool := if Rlt_dec a b then true else false.
(** (a - b).norm() *)
Definition normdiff (a b : vec) : R := sqrt ((co 0 a - co 0 b) * (co 0 a - co 0 b) + (co 1 a - co 1 b) * (co 1 a - co 1 b) + (co 2 a - co 2 b) * (co 2 a - co 2 b)).
(** srch_kdtree.h:10-16 KDTNodePoint *)
Inductive tree := Null | Node (separator : vec) (rightChild leftChild : tree).
(** srch_kdtree.h:26-45: which coordinate is used at a depth, sorting of a range with std::sort.  [srt k] is std::sort with the comparison a[k] > b[k]. *)
Definition axis (depth : nat) : nat := if (depth mod 3 =? 0)%nat then 0 else if (depth mod 3 =? 1)%nat then 1 else 2.
Definition sort_range (srt : nat -> list vec -> list vec) (k : nat) (l : list vec) (b e : nat) : list vec := firstn b l ++ srt k (firstn (e - b) (skipn b l)) ++ skipn e l.
(** srch_kdtree.h:18-61; the fuel bounds the recursion depth. *)
Fixpoint ConstructNode (srt : nat -> list vec -> list vec) (fuel : nat) (pointList : list vec) (beginInd endInd depth : nat) : option tree :=
  match fuel with 0%nat => None | S fuel =>
  if (endInd - beginInd =? 1)%nat then s <- vget pointList beginInd ;; Some (Node s Null Null) else
  let pointList := sort_range srt (axis depth) pointList beginInd endInd in
  let midInd := ((endInd - beginInd) / 2 + beginInd)%nat in
  s <- vget pointList midInd ;;
  r <- (if (beginInd =? midInd)%nat then Some Null else ConstructNode srt fuel pointList beginInd midInd (depth + 1)) ;;
  l <- (if (midInd + 1 =? endInd)%nat then Some Null else ConstructNode srt fuel pointList (midInd + 1) endInd (depth + 1)) ;;
  Some (Node s r l)
  end.
(** srch_kdtree.h:63-76 *)
Definition ConstructKDT (srt : nat -> list vec -> list vec) (Points : list vec) : option tree :=
  assertb (negb (length Points =? 0)%nat) ;;; ConstructNode srt (length Points) Points 0 (length Points) 0.
(** srch_kdtree.h:78-141.  Returns the point and the new value of closestdist; [junk] is the content of the local variable retv before it is assigned.  Searching from a null node has no counterpart in the program. *)
Fixpoint SearchNearest (junk : vec) (root : tree) (Q : vec) (depth : nat) (closestdist : R) : option (vec * R) :=
  match root with
  | Null => None
  | Node sep rch lch =>
    let distP := co (axis depth) Q - co (axis depth) sep in
    let localclosestdist := closestdist in
    let retv := junk in
    let dist0 := normdiff sep Q in
    let '(retv, localclosestdist) := if ltR dist0 localclosestdist then (sep, dist0) else (retv, localclosestdist) in
    let visit (child : option (option (vec * R))) (s : vec * R) : option (vec * R) :=
      match child with
      | None => Some s
      | Some call => '(p, d) <- call ;; if ltR (-1/10) d && ltR d (snd s) then Some (p, d) else Some s
      end in
    let rcall c := match rch with Null => None | _ => Some (SearchNearest junk rch Q (depth + 1) c) end in
    let lcall c := match lch with Null => None | _ => Some (SearchNearest junk lch Q (depth + 1) c) end in
    let rightfirst := match rch, lch with
      | Null, _ => false
      | _, Null => true
      | _, _ => ltR 0 distP
      end in
    let next := if rightfirst then rcall else lcall in
    let sibling := if rightfirst then lcall else rcall in
    s <- visit (next localclosestdist) (retv, localclosestdist) ;;
    s <- (if ltR (Rabs distP) (snd s) then visit (sibling (snd s)) s else Some s) ;;
    if ltR closestdist (snd s) then Some ((0, 0, 0), -1) else Some s
  end.
(** srch_kdtree.h:143-148; [big] is the largest double. *)
Definition SearchNearstPoint (junk : vec) (big : R) (root : tree) (Q : vec) : option vec := '(p, _) <- SearchNearest junk root Q 0 big ;; Some p.
