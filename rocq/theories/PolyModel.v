(** Model of /repo/include/delfem2/geo_polygon2.cpp.  Real numbers stand for double; a division by zero is undefined (None). Indices of type int are natural numbers. *)
From Coq Require Import List Arith Bool Reals.
Import ListNotations.
From Verif Require Import Imp PrModel.
Open Scope R_scope.

Notation pt := (R * R)%type (only parsing).
Definition subp (a b : pt) : pt := (fst a - fst b, snd a - snd b).
Definition dotp (a b : pt) : R := fst a * fst b + snd a * snd b.
Definition crossp (a b : pt) : R := fst a * snd b - snd a * fst b.
Definition normp (a : pt) : R := sqrt (fst a * fst a + snd a * snd a).
(** vec2.cpp:28-36 and vec2.cpp:261-268 *)
Definition Area_Tri2 (v1 v2 v3 : pt) : R :=
  ((fst v2 - fst v1) * (snd v3 - snd v1) - (fst v3 - fst v1) * (snd v2 - snd v1)) / 2.
(** vec2.cpp:12-24 *)
Definition IsCrossLines (s0 e0 s1 e1 : pt) : bool :=
  let area1 := Area_Tri2 s0 e0 s1 in
  let area2 := Area_Tri2 s0 e0 e1 in
  if ltR 0 (area1 * area2) then false else
  let area3 := Area_Tri2 s1 e1 s0 in
  let area4 := Area_Tri2 s1 e1 e0 in
  if ltR 0 (area3 * area4) then false else true.
(** geo_polygon2.cpp:41-52 *)
Definition Length_Polygon (aP : list pt) : option R :=
  if (length aP <? 2)%nat then Some 0 else
  let np := length aP in
  forn 0 np (fun ip0 len =>
    let ip1 := ((ip0 + 1) mod np)%nat in
    p0 <- vget aP ip0 ;;
    p1 <- vget aP ip1 ;;
    Some (len + normp (subp p0 p1))) 0.
(** geo_polygon2.cpp:126-149; the pair (cg, area) *)
Definition CgArea_Polygon (aVec2D : list pt) : option (pt * R) :=
  let nseg := length aVec2D in
  '(area, cx, cy) <- forn 0 nseg (fun iseg '(area, cx, cy) =>
    let ip0 := ((iseg + 0) mod nseg)%nat in
    let ip1 := ((iseg + 1) mod nseg)%nat in
    p0 <- vget aVec2D ip0 ;;
    p1 <- vget aVec2D ip1 ;;
    let '(x0, y0) := p0 in
    let '(x1, y1) := p1 in
    let ai := x0 * y1 - x1 * y0 in
    Some (area + ai, cx + ai * (x0 + x1) / 3, cy + ai * (y0 + y1) / 3)) (0, 0, 0) ;;
  cx <- div cx area ;;
  cy <- div cy area ;;
  let area := area * / 2 in
  Some ((cx, cy), area).
(** geo_polygon2.cpp:162-177 *)
Definition RotationalMomentPolar_Polygon2 (aVec2 : list pt) (pivot : pt) : option R :=
  let ne := length aVec2 in
  sum_I <- forn 0 ne (fun ie sum_I =>
    let ip0 := ie in
    let ip1 := ((ie + 1) mod ne)%nat in
    q0 <- vget aVec2 ip0 ;;
    q1 <- vget aVec2 ip1 ;;
    let p0 := subp q0 pivot in
    let p1 := subp q1 pivot in
    let a0 := crossp p0 p1 * / 2 in
    Some (sum_I + a0 * (dotp p0 p0 + dotp p0 p1 + dotp p1 p1))) 0 ;;
  Some (sum_I * (1 / 6)).
(** std::atan2 *)
Definition atan2 (y x : R) : R :=
  if ltR 0 x then atan (y / x)
  else if ltR x 0 then (if ltR y 0 then atan (y / x) - PI else atan (y / x) + PI)
  else if ltR 0 y then PI / 2 else if ltR y 0 then - (PI / 2) else 0.
(** geo_polygon2.cpp:187-234; the results (cg, area, pa1, I1, pa2, I2), of which I1 and I2 keep the values passed in when the function returns early *)
Definition SecondMomentOfArea_Polygon (I1 I2 : R) (aVec2D : list pt) : option (pt * R * pt * R * pt * R) :=
  let nseg := length aVec2D in
  '(area, cx, cy) <- forn 0 nseg (fun iseg '(area, cx, cy) =>
    let ip0 := ((iseg + 0) mod nseg)%nat in
    let ip1 := ((iseg + 1) mod nseg)%nat in
    p0 <- vget aVec2D ip0 ;;
    p1 <- vget aVec2D ip1 ;;
    let '(x0, y0) := p0 in
    let '(x1, y1) := p1 in
    let ai := x0 * y1 - x1 * y0 in
    Some (area + ai, cx + ai * (x0 + x1) / 3, cy + ai * (y0 + y1) / 3)) (0, 0, 0) ;;
  cx <- div cx area ;;
  cy <- div cy area ;;
  let area := area * / 2 in
  '(Ix, Iy, Ixy) <- forn 0 nseg (fun iseg '(Ix, Iy, Ixy) =>
    let ip0 := ((iseg + 0) mod nseg)%nat in
    let ip1 := ((iseg + 1) mod nseg)%nat in
    p0 <- vget aVec2D ip0 ;;
    p1 <- vget aVec2D ip1 ;;
    let x0 := fst p0 - cx in
    let y0 := snd p0 - cy in
    let x1 := fst p1 - cx in
    let y1 := snd p1 - cy in
    let ai := x0 * y1 - x1 * y0 in
    Some (Ix + ai * (y0 * y0 + y0 * y1 + y1 * y1) / 12,
          Iy + ai * (x0 * x0 + x0 * x1 + x1 * x1) / 12,
          Ixy + ai * (x0 * y0 + / 2 * x0 * y1 + / 2 * x1 * y0 + x1 * y1) / 12)) (0, 0, 0) ;;
  if ltR (Rabs (Ix - Iy) + Rabs Ixy) (1 / 10 ^ 20) then Some ((cx, cy), area, (1, 0), I1, (0, 1), I2) else
  let phi := / 2 * atan2 (-2 * Ixy) (Ix - Iy) in
  let pa1 := (cos phi, sin phi) in
  let pa2 := (- sin phi, cos phi) in
  let I1 := / 2 * (Ix + Iy) + / 2 * sqrt ((Ix - Iy) * (Ix - Iy) + 4 * Ixy * Ixy) in
  let I2 := / 2 * (Ix + Iy) - / 2 * sqrt ((Ix - Iy) * (Ix - Iy) + 4 * Ixy * Ixy) in
  Some ((cx, cy), area, pa1, I1, pa2, I2).
(** geo_polygon2.cpp:514-522 *)
Definition Polygon_Invert (aP : list pt) : option (list pt) :=
  ford (length aP) 0 (fun ip1 res => let ip := (ip1 - 1)%nat in p <- vget aP ip ;; Some (res ++ [p])) [].
(** geo_polygon2.cpp:524-533 *)
Definition XY_Polygon (aP : list pt) : option (list R) :=
  foldM (fun ip res => Some ((res ++ [fst ip]) ++ [snd ip])) aP [].

(** geo_polygon2.cpp:246-275; the results (aIndXYs, loopIP0, aXY) *)
Definition JArray_FromVecVec_XY (aVecAry0 : list (list R)) : option (list nat * list nat * list pt) :=
  let nloop := length aVecAry0 in
  let aIndXYs := repeat 0%nat (nloop + 1) in
  aIndXYs <- vset aIndXYs 0 0%nat ;;
  '(aIndXYs, npo_sum) <- forn 0 nloop (fun iloop '(aIndXYs, npo_sum) =>
    v <- vget aVecAry0 iloop ;;
    let npo := (length v / 2)%nat in
    i0 <- vget aIndXYs iloop ;;
    aIndXYs <- vset aIndXYs (iloop + 1) (i0 + npo)%nat ;;
    Some (aIndXYs, (npo_sum + npo)%nat)) (aIndXYs, 0%nat) ;;
  let aXY := repeat (0, 0) npo_sum in
  '(aXY, npo_sum) <- forn 0 nloop (fun iloop '(aXY, npo_sum) =>
    v <- vget aVecAry0 iloop ;;
    let nxys := (length v / 2)%nat in
    forn 0 nxys (fun ixys '(aXY, npo_sum) =>
      x <- vget v (ixys * 2 + 0) ;;
      y <- vget v (ixys * 2 + 1) ;;
      aXY <- vset aXY npo_sum (x, y) ;;
      Some (aXY, (npo_sum + 1)%nat)) (aXY, npo_sum)) (aXY, 0%nat) ;;
  loopIP0 <- forn 0 (length aXY) (fun ip l => vset l ip ip) (repeat 0%nat (length aXY)) ;;
  Some (aIndXYs, loopIP0, aXY).

(** geo_polygon2.cpp:536-575 *)
Definition FixLoopOrientation (loopIP : list nat) (loopIP_ind : list nat) (aXY : list pt) : option (list nat) :=
  let loop_old := loopIP in
  assertb (1 <? length loopIP_ind)%nat ;;;
  let nloop := (length loopIP_ind - 1)%nat in
  '(loopIP, ivtx0) <- forn 0 nloop (fun iloop '(loopIP, ivtx0) =>
    b <- vget loopIP_ind iloop ;;
    e <- vget loopIP_ind (iloop + 1) ;;
    let nbar := (e - b)%nat in
    area_loop <- forn 0 nbar (fun ibar area_loop =>
      let iipo0 := (b + (ibar + 0) mod nbar)%nat in
      let iipo1 := (b + (ibar + 1) mod nbar)%nat in
      ipo0 <- vget loop_old iipo0 ;;
      ipo1 <- vget loop_old iipo1 ;;
      p0 <- vget aXY ipo0 ;;
      p1 <- vget aXY ipo1 ;;
      Some (area_loop + Area_Tri2 (0, 0) p0 p1)) 0 ;;
    let nbar0 := (e - b)%nat in
    if Bool.eqb (ltR 0 area_loop) (iloop =? 0)%nat then
      forn 0 nbar0 (fun ibar '(loopIP, ivtx0) =>
        let iipo := (b + ibar)%nat in
        ipo <- vget loop_old iipo ;;
        loopIP <- vset loopIP ivtx0 ipo ;;
        Some (loopIP, (ivtx0 + 1)%nat)) (loopIP, ivtx0)
    else
      forn 0 nbar0 (fun ibar '(loopIP, ivtx0) =>
        let iipo := (e - 1 - ibar)%nat in
        ipo <- vget loop_old iipo ;;
        loopIP <- vset loopIP ivtx0 ipo ;;
        Some (loopIP, (ivtx0 + 1)%nat)) (loopIP, ivtx0)) (loopIP, 0%nat) ;;
  Some loopIP.

(** The conversion of a non-negative double to int. *)
Definition trunc (x : R) : nat := Z.to_nat (Int_part x).
(** geo_polygon2.cpp:284-351, with the assertions of the debug build; the results (loopIP1_ind, loopIP1, aVec2). Distance is vec2.h's Euclidean distance. *)
Definition ResamplingLoop (loopIP1_ind loopIP1 : list nat) (aVec2 : list pt) (max_edge_length : R) : option (list nat * list nat * list pt) :=
  assertb (length aVec2 =? length loopIP1)%nat ;;;
  let loopIP0_ind := loopIP1_ind in
  let loopIP0 := loopIP1 in
  assertb (2 <=? length loopIP0)%nat ;;;
  assertb (1 <=? length loopIP0_ind)%nat ;;;
  let nloop := (length loopIP0_ind - 1)%nat in
  '(aPoInEd, aVec2) <- forn 0 nloop (fun iloop '(aPoInEd, aVec2) =>
    b <- vget loopIP0_ind iloop ;;
    e <- vget loopIP0_ind (iloop + 1) ;;
    assertb (b <? e)%nat ;;;
    let np := (e - b)%nat in
    forn 0 np (fun ip '(aPoInEd, aVec2) =>
      let iipo0 := (b + (ip + 0) mod np)%nat in
      let iipo1 := (b + (ip + 1) mod np)%nat in
      assertb (iipo0 <? length loopIP0)%nat ;;;
      assertb (iipo1 <? length loopIP0)%nat ;;;
      ipo0 <- vget loopIP0 iipo0 ;;
      ipo1 <- vget loopIP0 iipo1 ;;
      assertb (ipo0 <? length aVec2)%nat ;;;
      assertb (ipo1 <? length aVec2)%nat ;;;
      po0 <- vget aVec2 ipo0 ;;
      po1 <- vget aVec2 ipo1 ;;
      nadd <- div (normp (subp po0 po1)) max_edge_length ;;
      let nadd := trunc nadd in
      if (nadd =? 0)%nat then Some (aPoInEd, aVec2) else
      forn 0 nadd (fun iadd '(aPoInEd, aVec2) =>
        r2 <- div (INR (iadd + 1)) (INR (nadd + 1)) ;;
        let v2 := ((1 - r2) * fst po0 + r2 * fst po1, (1 - r2) * snd po0 + r2 * snd po1) in
        let ipo2 := length aVec2 in
        let aVec2 := aVec2 ++ [v2] in
        assertb (iipo0 <? length aPoInEd)%nat ;;;
        aPoInEd <- vmod aPoInEd iipo0 (fun l => l ++ [ipo2]) ;;
        Some (aPoInEd, aVec2)) (aPoInEd, aVec2)) (aPoInEd, aVec2)) (repeat [] (length loopIP0), aVec2) ;;
  let loopIP1_ind := vresize 0%nat loopIP1_ind (nloop + 1) in
  loopIP1_ind <- vset loopIP1_ind 0 0%nat ;;
  loopIP1_ind <- forn 0 nloop (fun iloop loopIP1_ind =>
    b <- vget loopIP0_ind iloop ;;
    e <- vget loopIP0_ind (iloop + 1) ;;
    let nbar0 := (e - b)%nat in
    nbar1 <- forn 0 nbar0 (fun ibar nbar1 =>
      let iip_loop := (b + ibar)%nat in
      l <- vget aPoInEd iip_loop ;;
      Some (nbar1 + length l)%nat) nbar0 ;;
    i0 <- vget loopIP1_ind iloop ;;
    vset loopIP1_ind (iloop + 1) (i0 + nbar1)%nat) loopIP1_ind ;;
  last <- vget loopIP1_ind nloop ;;
  let loopIP1 := vresize 0%nat loopIP1 last in
  '(loopIP1, ivtx0) <- forn 0 nloop (fun iloop '(loopIP1, ivtx0) =>
    b <- vget loopIP0_ind iloop ;;
    e <- vget loopIP0_ind (iloop + 1) ;;
    forn b e (fun iip_loop '(loopIP1, ivtx0) =>
      ip_loop <- vget loopIP0 iip_loop ;;
      loopIP1 <- vset loopIP1 ivtx0 ip_loop ;;
      let ivtx0 := (ivtx0 + 1)%nat in
      lb <- vget aPoInEd ip_loop ;;
      forn 0 (length lb) (fun iadd '(loopIP1, ivtx0) =>
        l <- vget aPoInEd iip_loop ;;
        v <- vget l iadd ;;
        loopIP1 <- vset loopIP1 ivtx0 v ;;
        Some (loopIP1, (ivtx0 + 1)%nat)) (loopIP1, ivtx0)) (loopIP1, ivtx0)) (loopIP1, 0%nat) ;;
  assertb (length loopIP1 =? length aVec2)%nat ;;;
  assertb (length loopIP1 =? ivtx0)%nat ;;;
  Some (loopIP1_ind, loopIP1, aVec2).

(** The two bounding box comparisons of geo_polygon2.cpp:455-470 and 485-490 *)
Definition boxes_apart (pi0 pi1 pj0 pj1 : pt) : bool :=
  let max := fun a b => if ltR a b then b else a in
  let min := fun a b => if ltR b a then b else a in
  (ltR (max (fst pi0) (fst pi1)) (min (fst pj0) (fst pj1)) || ltR (max (fst pj0) (fst pj1)) (min (fst pi0) (fst pi1)))
  || (ltR (max (snd pi0) (snd pi1)) (min (snd pj0) (snd pj1)) || ltR (max (snd pj0) (snd pj1)) (min (snd pi0) (snd pi1))).
(** geo_polygon2.cpp:446-504, the section that looks for intersecting edges: is_intersect; the points, the bounding box comparison, IsCrossLines and the expression {p[1], p[1]} are parameters *)
Definition check_edges {P : Type} (apart cross : P -> P -> P -> P -> bool) (yy : P -> P) (loopIP_ind : list nat) (aXY : list P) : option bool :=
  let nloop := (length loopIP_ind - 1)%nat in
  forb 0 nloop (fun iloop is_intersect =>
    b <- vget loopIP_ind iloop ;;
    e <- vget loopIP_ind (iloop + 1) ;;
    let nei := (e - b)%nat in
    is_intersect <- forb 0 nei (fun ie is_intersect =>
      let i0 := (b + (ie + 0) mod nei)%nat in
      let i1 := (b + (ie + 1) mod nei)%nat in
      pi0 <- vget aXY i0 ;;
      pi1 <- vget aXY i1 ;;
      is_intersect <- forb (ie + 1) nei (fun je is_intersect =>
        let j0 := (b + (je + 0) mod nei)%nat in
        let j1 := (b + (je + 1) mod nei)%nat in
        if (i0 =? j0)%nat || (i0 =? j1)%nat || (i1 =? j0)%nat || (i1 =? j1)%nat then Some (is_intersect, false) else
        pj0 <- vget aXY j0 ;;
        pj1 <- vget aXY j1 ;;
        if apart pi0 pi1 pj0 pj1 then Some (is_intersect, false) else
        if cross pi0 pi1 pj0 pj1 then Some (true, true) else Some (is_intersect, false)) is_intersect ;;
      if is_intersect then Some (is_intersect, true) else
      is_intersect <- forb (iloop + 1) nloop (fun jloop is_intersect =>
        bj <- vget loopIP_ind jloop ;;
        ej <- vget loopIP_ind (jloop + 1) ;;
        let nbar_j := (ej - bj)%nat in
        is_intersect <- forb 0 nbar_j (fun jbar is_intersect =>
          let jpo0 := (bj + jbar)%nat in
          let jpo1 := (bj + jbar + 1)%nat in
          let jpo1 := if (jbar =? nbar_j - 1)%nat then bj else jpo1 in
          pj0 <- vget aXY jpo0 ;;
          pj1 <- vget aXY jpo1 ;;
          let pj1 := yy pj1 in
          if apart pi0 pi1 pj0 pj1 then Some (is_intersect, false) else
          if cross pi0 pi1 pj0 pj1 then Some (true, true) else Some (is_intersect, false)) is_intersect ;;
        Some (is_intersect, is_intersect)) is_intersect ;;
      Some (is_intersect, is_intersect)) is_intersect ;;
    Some (is_intersect, is_intersect)) false.
Definition CheckIntersection : list nat -> list pt -> option bool := check_edges boxes_apart IsCrossLines (fun p => (snd p, snd p)).
