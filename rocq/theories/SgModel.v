(** Model of /repo/include/delfem2/srchgrid.h.  Real numbers stand for double; machine integers do not overflow. *)
From Coq Require Import List Arith Bool ZArith Reals.
Import ListNotations.
From Verif Require Import Imp.
Open Scope nat_scope.

Definition vec := (R * R * R)%type.
(** srchgrid.h:31-37: members *)
Record sgrid := SGrid { aGrid2Obj : list (nat * nat); aGrid2Obj_ind : list nat; gh : R; bbmin : vec; nx : nat; ny : nat; nz : nat }.
Definition floorR (x : R) : Z := Int_part x.
Definition ceilR (x : R) : Z := (- Int_part (- x))%Z.
(** srchgrid.h:39-55.  The objects are value-initialised by resize; old ones are kept. *)
Definition Initialize (g : sgrid) (bmin bmax : vec) (h : R) (nobj : nat) : sgrid :=
  let '(x0, y0, z0) := bmin in let '(x1, y1, z1) := bmax in
  SGrid (firstn nobj (aGrid2Obj g) ++ repeat (0, 0) (nobj - length (aGrid2Obj g))) (aGrid2Obj_ind g) h bmin
    (Z.to_nat (ceilR ((x1 - x0) / h))) (Z.to_nat (ceilR ((y1 - y0) / h))) (Z.to_nat (ceilR ((z1 - z0) / h))).
(** srchgrid.h:64-69: one coordinate of GridIndex; int(n - 1) of n = 0 is -1. *)
Definition clamp (i : Z) (n : nat) : Z := (if i <? 0 then 0 else if Z.of_nat n <=? i then Z.of_nat n - 1 else i)%Z.
(** srchgrid.h:58-70 *)
Definition GridIndex (g : sgrid) (p : vec) : Z * Z * Z :=
  let '(x, y, z) := p in let '(x0, y0, z0) := bbmin g in
  (clamp (floorR ((x - x0) / gh g)) (nx g), clamp (floorR ((y - y0) / gh g)) (ny g), clamp (floorR ((z - z0) / gh g)) (nz g)).
(** srchgrid.h:72-76, 132: the number of a grid cell *)
Definition cell (g : sgrid) (ix iy iz : Z) : Z := (iz * Z.of_nat (ny g) * Z.of_nat (nx g) + iy * Z.of_nat (nx g) + ix)%Z.
(** srchgrid.h:72-76; a negative result (no cells) is not given a meaning *)
Definition GetGridIndex (g : sgrid) (p : vec) : nat := let '(ix0, iy0, iz0) := GridIndex g p in Z.to_nat (cell g ix0 iy0 iz0).

(** srchgrid.h:13: std::upper_bound on a range that is sorted: the number of leading elements that are not greater *)
Fixpoint upper_bound (l : list (nat * nat)) (v : nat * nat) : nat := match l with [] => 0 | e :: l => if fst v <? fst e then 0 else S (upper_bound l v) end.
(** srchgrid.h:9-16.  std::rotate(p, it, it+1) moves element it to position p. *)
Definition insertion_sort_stl (l : list (nat * nat)) : option (list (nat * nat)) :=
  forn 0 (length l) (fun it vec => v <- vget vec it ;; let pre := firstn it vec in let p := upper_bound pre v in
    Some (firstn p pre ++ [v] ++ skipn p pre ++ skipn (S it) vec)) l.
(** srchgrid.h:100: while (aGrid2Obj[i0].igrid <= ig && i0 < aGrid2Obj.size()) { i0++; }   [past] is what reading the element at the end of the array gives: nothing (undefined behaviour) or some left-over number. *)
Fixpoint advance (past : option nat) (objs : list (nat * nat)) (ig : nat) (fuel i0 : nat) : option nat :=
  match fuel with 0 => None | S fuel =>
    v <- (match nth_error objs i0 with Some e => Some (fst e) | None => if i0 =? length objs then past else None end) ;;
    if (v <=? ig) && (i0 <? length objs) then advance past objs ig fuel (S i0) else Some i0
  end.
(** srchgrid.h:88-114, with the assertion of the debug build.  [srt] is std::sort. *)
Definition PostProcess (past : option nat) (srt : list (nat * nat) -> list (nat * nat)) (is_initial : bool) (g : sgrid) : option sgrid :=
  objs <- (if is_initial then Some (srt (aGrid2Obj g)) else insertion_sort_stl (aGrid2Obj g)) ;;
  let ng := nx g * ny g * nz g in
  let ind := vresize 0 (aGrid2Obj_ind g) (ng + 1) in
  ind <- vset ind 0 0 ;;
  '(_, ind) <- forn 0 ng (fun ig '(i0, ind) =>
    i0 <- advance past objs ig (S (length objs)) i0 ;;
    ind <- vset ind (ig + 1) i0 ;; Some (i0, ind)) (0, ind) ;;
  forn 0 ng (fun ig _ => b <- vget ind ig ;; e <- vget ind (ig + 1) ;; forn b e (fun ii0 _ => o <- vget objs ii0 ;; assertb (fst o =? ig)) tt) tt ;;;
  Some (SGrid objs ind (gh g) (bbmin g) (nx g) (ny g) (nz g)).
(** srchgrid.h:116-140 *)
Definition GetOneRingNeighbor (g : sgrid) (p : vec) : option (list nat) :=
  let '(ix0, iy0, iz0) := GridIndex g p in
  let r := [-1; 0; 1]%Z in
  foldM (fun i aIP => foldM (fun j aIP => foldM (fun k aIP =>
    let ix1 := (ix0 + i)%Z in if ((ix1 <? 0) || (Z.of_nat (nx g) <=? ix1))%Z then Some aIP else
    let iy1 := (iy0 + j)%Z in if ((iy1 <? 0) || (Z.of_nat (ny g) <=? iy1))%Z then Some aIP else
    let iz1 := (iz0 + k)%Z in if ((iz1 <? 0) || (Z.of_nat (nz g) <=? iz1))%Z then Some aIP else
    let ig1 := Z.to_nat (cell g ix1 iy1 iz1) in
    b <- vget (aGrid2Obj_ind g) ig1 ;; e <- vget (aGrid2Obj_ind g) (ig1 + 1) ;;
    forn b e (fun ii0 aIP => o <- vget (aGrid2Obj g) ii0 ;; Some (aIP ++ [snd o])) aIP) r aIP) r aIP) r [].
