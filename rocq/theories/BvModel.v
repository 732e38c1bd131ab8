(** Model of the bounding volumes (/repo/include/delfem2/srch_bv3_aabb.h, srch_bv3_sphere.h) and of the hierarchy functions
    of /repo/include/delfem2/srch_bvh.h.  Floating-point numbers are real numbers. *)
From Coq Require Import List Arith Bool Reals.
Import ListNotations.
From Verif Require Import Imp MortModel.
Open Scope nat_scope.

Definition Rltb (a b : R) : bool := if Rlt_dec a b then true else false.
Definition Rleb (a b : R) : bool := if Rle_dec a b then true else false.
Record v3 := V3 { vx : R; vy : R; vz : R }.
Open Scope R_scope.

(** ---- srch_bv3_aabb.h ---- *)
Record aabb := Box { bmin : v3; bmax : v3 }.

(** srch_bv3_aabb.h:26 default constructor. *)
Definition aabb0 : aabb := Box (V3 1 0 0) (V3 (-1) 0 0).
(** srch_bv3_aabb.h:38-41. *)
Definition aabb_IsActive (b : aabb) : bool := negb (Rltb (vx (bmax b)) (vx (bmin b))).
(** srch_bv3_aabb.h:42-45. *)
Definition aabb_Set_Inactive (b : aabb) : aabb :=
  Box (V3 1 (vy (bmin b)) (vz (bmin b))) (V3 (-1) (vy (bmax b)) (vz (bmax b))).
Definition sel_min (a b : R) : R := if Rltb a b then a else b.   (* (a < b) ? a : b *)
Definition sel_max (a b : R) : R := if Rltb b a then a else b.   (* (a > b) ? a : b *)
(** srch_bv3_aabb.h:78-96 operator+=(box). *)
Definition aabb_add (a b : aabb) : aabb :=
  if negb (aabb_IsActive b) then a else
  if negb (aabb_IsActive a) then Box (bmin b) (bmax b) else
  Box (V3 (sel_min (vx (bmin a)) (vx (bmin b))) (sel_min (vy (bmin a)) (vy (bmin b))) (sel_min (vz (bmin a)) (vz (bmin b))))
      (V3 (sel_max (vx (bmax a)) (vx (bmax b))) (sel_max (vy (bmax a)) (vy (bmax b))) (sel_max (vz (bmax a)) (vz (bmax b)))).
(** srch_bv3_aabb.h:129-140 IsIntersect. *)
Definition aabb_IsIntersect (a b : aabb) : bool :=
  if negb (aabb_IsActive a) then false else
  if negb (aabb_IsActive b) then false else
  if Rltb (vx (bmax b)) (vx (bmin a)) then false else
  if Rltb (vy (bmax b)) (vy (bmin a)) then false else
  if Rltb (vz (bmax b)) (vz (bmin a)) then false else
  if Rltb (vx (bmax a)) (vx (bmin b)) then false else
  if Rltb (vy (bmax a)) (vy (bmin b)) then false else
  if Rltb (vz (bmax a)) (vz (bmin b)) then false else
  true.
(** srch_bv3_aabb.h:141-156 operator+=(point). *)
Definition aabb_addv (a : aabb) (v : v3) : aabb :=
  if negb (aabb_IsActive a) then Box v v else
  Box (V3 (sel_min (vx (bmin a)) (vx v)) (sel_min (vy (bmin a)) (vy v)) (sel_min (vz (bmin a)) (vz v)))
      (V3 (sel_max (vx (bmax a)) (vx v)) (sel_max (vy (bmax a)) (vy v)) (sel_max (vz (bmax a)) (vz v))).
(** srch_bv3_aabb.h:164-181 AddPoint. *)
Definition aabb_AddPoint (a : aabb) (p : v3) (eps : R) : aabb :=
  if Rltb eps 0 then a else
  if negb (aabb_IsActive a) then
    Box (V3 (vx p - eps) (vy p - eps) (vz p - eps)) (V3 (vx p + eps) (vy p + eps) (vz p + eps)) else
  Box (V3 (sel_min (vx (bmin a)) (vx p - eps)) (sel_min (vy (bmin a)) (vy p - eps)) (sel_min (vz (bmin a)) (vz p - eps)))
      (V3 (sel_max (vx (bmax a)) (vx p + eps)) (sel_max (vy (bmax a)) (vy p + eps)) (sel_max (vz (bmax a)) (vz p + eps))).
Definition clampR (lo hi x : R) : R := if Rltb x lo then lo else if Rltb x hi then x else hi.
(** srch_bv3_aabb.h:182-194 MinimumDistance. *)
Definition aabb_MinimumDistance (b : aabb) (q : v3) : R :=
  let x0 := clampR (vx (bmin b)) (vx (bmax b)) (vx q) in
  let y0 := clampR (vy (bmin b)) (vy (bmax b)) (vy q) in
  let z0 := clampR (vz (bmin b)) (vz (bmax b)) (vz q) in
  sqrt ((x0 - vx q) * (x0 - vx q) + (y0 - vy q) * (y0 - vy q) + (z0 - vz q) * (z0 - vz q)).
(** srch_bv3_aabb.h:195-202 isInclude_Point. *)
Definition aabb_isInclude_Point (b : aabb) (q : v3) : bool :=
  if negb (aabb_IsActive b) then false else
  Rleb (vx (bmin b)) (vx q) && Rleb (vx q) (vx (bmax b)) &&
  Rleb (vy (bmin b)) (vy q) && Rleb (vy q) (vy (bmax b)) &&
  Rleb (vz (bmin b)) (vz q) && Rleb (vz q) (vz (bmax b)).
(** srch_bv3_aabb.h:203-214 IsInclude_AABB3. *)
Definition aabb_IsInclude_AABB3 (a b : aabb) : bool :=
  if negb (aabb_IsActive a) then false else
  if negb (aabb_IsActive b) then true else
  Rleb (vx (bmin a)) (vx (bmin b)) && Rleb (vy (bmin a)) (vy (bmin b)) && Rleb (vz (bmin a)) (vz (bmin b)) &&
  Rleb (vx (bmax b)) (vx (bmax a)) && Rleb (vy (bmax b)) (vy (bmax a)) && Rleb (vz (bmax b)) (vz (bmax a)).

(** ---- srch_bv3_sphere.h ---- *)
Record sphere := Sph { sr : R; sc : v3 }.
(** srch_bv3_sphere.h:27-30 default constructor. *)
Definition sphere0 : sphere := Sph (-1) (V3 0 0 0).
(** srch_bv3_sphere.h:154-156 Distance3. *)
Definition Distance3 (p q : v3) : R :=
  sqrt ((vx p - vx q) * (vx p - vx q) + (vy p - vy q) * (vy p - vy q) + (vz p - vz q) * (vz p - vz q)).
(** srch_bv3_sphere.h:31-55 AddPoint. *)
Definition sphere_AddPoint (s : sphere) (p : v3) (R0 : R) : option sphere :=
  if Rltb R0 0 then Some s else
  if Rltb (sr s) 0 then Some (Sph R0 p) else
  let L := Distance3 p (sc s) in
  if Rltb (L + R0) (sr s) then Some s else
  if Rltb (L + sr s) R0 then Some (Sph R0 p) else
  if Rleb (Rabs L) (1 / 100000 * Rabs (sr s + R0)) then Some (Sph (L + R0) (sc s)) else
  let r0 := 1 / 2 * (L + sr s - R0) / L in
  let r1 := 1 / 2 * (L + R0 - sr s) / L in
  assertb (Rleb 0 r0 && Rleb 0 r1) ;;;
  Some (Sph (1 / 2 * (L + sr s + R0))
            (V3 (r0 * vx (sc s) + r1 * vx p) (r0 * vy (sc s) + r1 * vy p) (r0 * vz (sc s) + r1 * vz p))).
(** srch_bv3_sphere.h:56-61 IsIntersect. *)
Definition sphere_IsIntersect (s b : sphere) : bool :=
  let L := Distance3 (sc b) (sc s) in if Rltb (sr b + sr s) L then false else true.
(** srch_bv3_sphere.h:62-67. *)
Definition sphere_Set_Inactive (s : sphere) : sphere := Sph (-1) (sc s).
Definition sphere_IsActive (s : sphere) : bool := Rleb 0 (sr s).
Definition dot3 (a b : v3) : R := vx a * vx b + vy a * vy b + vz a * vz b.
Definition sub3 (a b : v3) : v3 := V3 (vx a - vx b) (vy a - vy b) (vz a - vz b).
(** srch_bv3_sphere.h:68-79 IsIntersectLine.  A zero direction divides by zero: [None]. *)
Definition sphere_IsIntersectLine (s : sphere) (src dir : v3) : option bool :=
  if Req_EM_T (dot3 dir dir) 0 then None else
  let ratio := dot3 dir (sub3 (sc s) src) / dot3 dir dir in
  let p := V3 (vx src + ratio * vx dir) (vy src + ratio * vy dir) (vz src + ratio * vz dir) in
  let L := Distance3 p (sc s) in
  assertb (Rltb (Rabs (dot3 dir (sub3 p (sc s)))) (1 / 10000)) ;;;
  Some (Rleb L (sr s)).
(** srch_bv3_sphere.h:80-93 IsIntersectRay. *)
Definition sphere_IsIntersectRay (s : sphere) (src dir : v3) : option bool :=
  let L0 := Distance3 src (sc s) in
  if Rleb L0 (sr s) then Some true else
  if Req_EM_T (dot3 dir dir) 0 then None else
  let ratio := dot3 dir (sub3 (sc s) src) / dot3 dir dir in
  if Rltb ratio 0 then Some false else
  let p := V3 (vx src + ratio * vx dir) (vy src + ratio * vy dir) (vz src + ratio * vz dir) in
  let L := Distance3 p (sc s) in
  assertb (Rltb (Rabs (dot3 dir (sub3 p (sc s)))) (1 / 10000000000)) ;;;
  Some (Rleb L (sr s)).
(** srch_bv3_sphere.h:94-98 operator+=. *)
Definition sphere_add (s b : sphere) : option sphere := sphere_AddPoint s (sc b) (sr b).
(** srch_bv3_sphere.h:99-103 isInclude_Point. *)
Definition sphere_isInclude_Point (s : sphere) (q : v3) : bool :=
  let L := dot3 (sub3 q (sc s)) (sub3 q (sc s)) in Rltb L (sr s * sr s).
(** srch_bv3_sphere.h:104-109 IsInclude. *)
Definition sphere_IsInclude (s bv : sphere) (margin : R) : bool := Rleb (Distance3 (sc bv) (sc s) + sr bv) (sr s + margin).
(** srch_bv3_sphere.h:114-125 Range_DistToPoint; (min0,max0) are in-out parameters. *)
Definition sphere_Range (s : sphere) (mm : R * R) (q : v3) : R * R :=
  if Rltb (sr s) 0 then mm else
  let L := Distance3 q (sc s) in
  if Rltb L (sr s) then (0, sr s + L) else (L - sr s, L + sr s).
(** srch_bv3_sphere.h:126-148 SetPoints4. *)
Definition sphere_SetPoints4 (p0 p1 p2 p3 : v3) (cc : R) : option sphere :=
  assertb (Rleb 0 cc) ;;;
  let c := V3 ((vx p0 + vx p1 + vx p2 + vx p3) * (1 / 4)) ((vy p0 + vy p1 + vy p2 + vy p3) * (1 / 4)) ((vz p0 + vz p1 + vz p2 + vz p3) * (1 / 4)) in
  let r0 := Distance3 c p0 in let r1 := Distance3 c p1 in let r2 := Distance3 c p2 in let r3 := Distance3 c p3 in
  let r := if Rltb r0 r1 then r1 else r0 in
  let r := if Rltb r r2 then r2 else r in
  let r := if Rltb r r3 then r3 else r in
  Some (Sph (r + cc) c).
Close Scope R_scope.

(** ---- srch_bvh.h ---- *)
(** Coordinates of vertex [i] of the flat array. *)
Definition getp (xyz : list R) (i : nat) : option v3 :=
  x <- vget xyz (i * 3 + 0) ;; y <- vget xyz (i * 3 + 1) ;; z <- vget xyz (i * 3 + 2) ;; Some (V3 x y z).

(** srch_bvh.h:146-154 CLeafVolumeMaker_Mesh::SetVolume, for any volume type with Set_Inactive and AddPoint. *)
Definition SetVolume_Mesh {BB} (inact : BB -> BB) (addp : BB -> v3 -> R -> option BB)
    (margin : R) (xyz : list R) (elem : list nat) (nElem nnoel : nat) (bb : BB) (ielem : nat) : option BB :=
  assertb (ielem <? nElem) ;;;
  forn 0 nnoel (fun inoel bb => ino0 <- vget elem (ielem * nnoel + inoel) ;; p <- getp xyz ino0 ;; addp bb p margin) (inact bb).

(** srch_bvh.h:174-179 CLeafVolumeMaker_Point::SetVolume: the volume is not reset first. *)
Definition SetVolume_Point {BB} (addp : BB -> v3 -> R -> option BB) (xyz : list R) (nXYZ : nat) (bb : BB) (ielem : nat) : option BB :=
  assertb (ielem <? nXYZ) ;;; p <- getp xyz ielem ;; addp bb p 0%R.

(** srch_bvh.h:356-382 BVH_BuildBVHGeometry; [fuel] bounds the depth of the recursion. *)
Fixpoint BuildGeometry {BB} (def : BB) (add : BB -> BB -> option BB) (setvol : BB -> nat -> option BB) (fuel : nat)
    (aBB : list BB) (ibvh : nat) (nodes : list bnode) : option (list BB) :=
  match fuel with
  | 0 => None
  | S fuel =>
    let aBB := vresize def aBB (length nodes) in
    assertb (ibvh <? length nodes) ;;;
    b <- vget nodes ibvh ;;
    ch0 <- ichild0 b ;;
    match ichild1 b with
    | None => bb <- vget aBB ibvh ;; bb <- setvol bb ch0 ;; vset aBB ibvh bb
    | Some ch1 =>
      n0 <- vget nodes ch0 ;; assertb (match iparent n0 with Some p => p =? ibvh | None => false end) ;;;
      n1 <- vget nodes ch1 ;; assertb (match iparent n1 with Some p => p =? ibvh | None => false end) ;;;
      aBB <- BuildGeometry def add setvol fuel aBB ch0 nodes ;;
      aBB <- BuildGeometry def add setvol fuel aBB ch1 nodes ;;
      bb0 <- vget aBB ch0 ;;
      aBB <- vset aBB ibvh bb0 ;;
      bb <- vget aBB ibvh ;; bb1 <- vget aBB ch1 ;;
      bb <- add bb bb1 ;; vset aBB ibvh bb
    end
  end.

(** srch_bvh.h:222-244 BVH_GetIndElem_Predicate. *)
Fixpoint GetIndElem {BB} (pred : nat -> list BB -> option bool) (fuel : nat) (acc : list nat) (ibvh : nat) (nodes : list bnode) (aBB : list BB)
    : option (list nat) :=
  match fuel with
  | 0 => None
  | S fuel =>
    assertb (ibvh <? length nodes) ;;;
    is_intersect <- pred ibvh aBB ;;
    if negb is_intersect then Some acc else
    b <- vget nodes ibvh ;;
    ch0 <- ichild0 b ;;
    match ichild1 b with
    | None => assertb (ch0 <? length aBB) ;;; Some (acc ++ [ch0])
    | Some ch1 =>
      acc <- GetIndElem pred fuel acc ch0 nodes aBB ;;
      GetIndElem pred fuel acc ch1 nodes aBB
    end
  end.

(** srch_bvh.h:246-330 the predicates CIsBV_IncludePoint, CIsBV_IntersectLine, CIsBV_IntersectRay, CIsBV_InsideRange.  In the
    last one min0 and max0 are uninitialised when the volume is inactive: [None]. *)
Definition pred_of {BB} (f : BB -> option bool) (ibvh : nat) (aBB : list BB) : option bool := bb <- vget aBB ibvh ;; f bb.
Definition sphere_InsideRange (pos : v3) (mn mx : R) (s : sphere) : option bool :=
  if Rltb (sr s) 0 then None else
  let '(min0, max0) := sphere_Range s (0%R, 0%R) pos in
  Some (negb (Rltb max0 mn || Rltb mx min0)).

(** srch_bvh.h:392-421 BVH_Range_DistToNearestPoint. *)
Fixpoint Range_DistToNearestPoint {BB} (range : BB -> R * R -> v3 -> R * R) (fuel : nat) (mm : R * R) (p : v3) (ibvh : nat)
    (nodes : list bnode) (aBB : list BB) : option (R * R) :=
  match fuel with
  | 0 => None
  | S fuel =>
    bb <- vget aBB ibvh ;;
    let '(mn, mx) := mm in
    let '(min0, max0) := range bb (1%R, (-1)%R) p in
    if Rltb max0 min0 then Some mm else
    if Rleb mn mx && Rltb mx min0 then Some mm else
    b <- vget nodes ibvh ;;
    ch0 <- ichild0 b ;;
    match ichild1 b with
    | None =>
      if Rltb mx mn then Some (min0, max0) else
      Some ((if Rltb min0 mn then min0 else mn), (if Rltb max0 mx then max0 else mx))
    | Some ch1 =>
      mm <- Range_DistToNearestPoint range fuel mm p ch0 nodes aBB ;;
      Range_DistToNearestPoint range fuel mm p ch1 nodes aBB
    end
  end.

(** srch_bvh.h:427-455 BVH_IndPoint_NearestPoint. *)
Fixpoint IndPoint_NearestPoint {BB} (range : BB -> R * R -> v3 -> R * R) (fuel : nat) (st : nat * R) (p : v3) (ibvh : nat)
    (nodes : list bnode) (aBB : list BB) : option (nat * R) :=
  match fuel with
  | 0 => None
  | S fuel =>
    assertb (length nodes =? length aBB) ;;;
    let '(ip, cur_dist) := st in
    bb <- vget aBB ibvh ;;
    let '(min0, max0) := range bb (1%R, (-1)%R) p in
    if Rltb max0 min0 then Some st else
    if Rltb 0 cur_dist && Rltb cur_dist min0 then Some st else
    b <- vget nodes ibvh ;;
    ch0 <- ichild0 b ;;
    match ichild1 b with
    | None =>
      assertb (if Req_EM_T min0 max0 then true else false) ;;;
      if Rltb cur_dist 0 || Rltb max0 cur_dist then Some (ch0, max0) else Some st
    | Some ch1 =>
      st <- IndPoint_NearestPoint range fuel st p ch0 nodes aBB ;;
      IndPoint_NearestPoint range fuel st p ch1 nodes aBB
    end
  end.
