(** Model of the intersection tests of /repo/include/delfem2/vec2.cpp, geo_edge.cpp, geo_tri.cpp, geo_plane.cpp and geo_tet.cpp.
    Numbers are reals.  A quotient by zero is modelled where it can occur: the functions that return bool give the answer that the
    comparisons with NaN or infinity give, and points computed from it are None. *)
From Coq Require Import List Arith Bool Reals.
Import ListNotations.
From Verif Require Import Imp PrModel PolyModel QuatModel ProxModel.
Open Scope R_scope.

(** geo_edge.cpp:134-167 *)
Definition IsIntersect_Edge2_Edge2 (po_s0 po_e0 po_s1 po_e1 : pt) : bool :=
  let min0x := if ltR (fst po_s0) (fst po_e0) then fst po_s0 else fst po_e0 in
  let max0x := if ltR (fst po_e0) (fst po_s0) then fst po_s0 else fst po_e0 in
  let max1x := if ltR (fst po_e1) (fst po_s1) then fst po_s1 else fst po_e1 in
  let min1x := if ltR (fst po_s1) (fst po_e1) then fst po_s1 else fst po_e1 in
  let min0y := if ltR (snd po_s0) (snd po_e0) then snd po_s0 else snd po_e0 in
  let max0y := if ltR (snd po_e0) (snd po_s0) then snd po_s0 else snd po_e0 in
  let max1y := if ltR (snd po_e1) (snd po_s1) then snd po_s1 else snd po_e1 in
  let min1y := if ltR (snd po_s1) (snd po_e1) then snd po_s1 else snd po_e1 in
  let len := ((max0x - min0x) + (max0y - min0y) + (max1x - min1x) + (max1y - min1y)) * (1 / 10000) in
  if ltR (max1x + len) min0x then false else
  if ltR (max0x + len) min1x then false else
  if ltR (max1y + len) min0y then false else
  if ltR (max0y + len) min1y then false else
  let area1 := Area_Tri2 po_s0 po_e0 po_s1 in
  let area2 := Area_Tri2 po_s0 po_e0 po_e1 in
  let area3 := Area_Tri2 po_s1 po_e1 po_s0 in
  let area4 := Area_Tri2 po_s1 po_e1 po_e0 in
  if ltR 0 (area1 * area2) then false else
  if ltR 0 (area3 * area4) then false else true.
(** geo_edge.cpp:199-268; the box is given by its least and its greatest corner *)
Definition IsIntersect_AABB2_Edge2 (pmin pmax p0 p1 : pt) : option bool :=
  assertb (negb (ltR (fst pmax) (fst pmin))) ;;;
  assertb (negb (ltR (snd pmax) (snd pmin))) ;;;
  let '(xmax, xmin) := if ltR (fst p1) (fst p0) then (fst p0, fst p1) else (fst p1, fst p0) in
  if ltR (fst pmax) xmin then Some false else
  if ltR xmax (fst pmin) then Some false else
  let '(ymax, ymin) := if ltR (snd p1) (snd p0) then (snd p0, snd p1) else (snd p1, snd p0) in
  if ltR (snd pmax) ymin then Some false else
  if ltR ymax (snd pmin) then Some false else
  let direction := subp p1 p0 in
  let normal := (snd direction, - fst direction) in
  let pos := fun c => ltR 0 (dotp normal (subp c p0)) in
  let corners := [pmin; pmax; (fst pmin, snd pmax); (fst pmax, snd pmin)] in
  let positive := existsb pos corners in
  let negative := existsb (fun c => negb (pos c)) corners in
  Some (positive && negative).

(** geo_tri.cpp:179-198: the answer with r0 and r1.  If vt is 0 the quotients are NaN or infinite; they are not all at least -eps: a positive
    one comes with a negative one *)
Definition IntersectRay_Tri3 (org dir p0 p1 p2 : vec3) (eps : R) : bool * option (R * R) :=
  let v0 := Volume_Tet3 p1 p2 org (add3 org dir) in
  let v1 := Volume_Tet3 p2 p0 org (add3 org dir) in
  let v2 := Volume_Tet3 p0 p1 org (add3 org dir) in
  let vt := v0 + v1 + v2 in
  if eqR vt 0 then (false, None) else
  let r0 := v0 / vt in
  let r1 := v1 / vt in
  let r2 := v2 / vt in
  (negb (ltR r0 (- eps)) && negb (ltR r1 (- eps)) && negb (ltR r2 (- eps)), Some (r0, r1)).
(** geo_tri.cpp:38-51 *)
Definition isPointSameSide (p0 p1 line_p0 line_p1 : vec3) : bool :=
  let crossProd1 := cross3 (sub3 line_p1 line_p0) (sub3 p0 line_p0) in
  let crossProd2 := cross3 (sub3 line_p1 line_p0) (sub3 p1 line_p0) in
  negb (ltR (dot3 crossProd1 crossProd2) 0).
(** geo_tri.cpp:366-380 *)
Definition isPointInsideTriangle (p0 tri_p1 tri_p2 tri_p3 : vec3) : bool :=
  isPointSameSide p0 tri_p1 tri_p2 tri_p3 && isPointSameSide p0 tri_p2 tri_p1 tri_p3 && isPointSameSide p0 tri_p3 tri_p1 tri_p2.
(** geo_tri.cpp:334-361: None if false, else the point *)
Definition isRayIntersectingTriangle (line0 line1 tri0 tri1 tri2 : vec3) : option vec3 :=
  let normal := cross3 (sub3 tri1 tri0) (sub3 tri2 tri0) in
  if eqR (dot3 normal (sub3 line1 line0)) 0 then None else
  let r := dot3 normal (sub3 tri0 line0) / dot3 normal (sub3 line1 line0) in
  if ltR r 0 then None else
  let intersectionPoint := add3 line0 (mul3 r (sub3 line1 line0)) in
  if negb (isPointInsideTriangle intersectionPoint tri0 tri1 tri2) then None else Some intersectionPoint.

(** geo_plane.cpp:23-35 *)
Definition Volume_Tet (v0 v1 v2 v3 : vec3) : R :=
  ((vx v1 - vx v0) * ((vy v2 - vy v0) * (vz v3 - vz v0) - (vy v3 - vy v0) * (vz v2 - vz v0))
   + (vy v1 - vy v0) * ((vz v2 - vz v0) * (vx v3 - vx v0) - (vz v3 - vz v0) * (vx v2 - vx v0))
   + (vz v1 - vz v0) * ((vx v2 - vx v0) * (vy v3 - vy v0) - (vx v3 - vx v0) * (vy v2 - vy v0))) * (1/6).
(** geo_plane.cpp:92-115: the answer, p0, r0, r1 and r2; the last are None if the line is parallel to the plane (NaN or infinite, the answer
    is then as in IntersectRay_Tri3) *)
Definition Intersection_Plane3_Line3 (eps : R) (src dir q0 q1 q2 : vec3) : bool * option (vec3 * R * R * R) :=
  let r0 := Volume_Tet src (add3 src dir) q1 q2 in
  let r1 := Volume_Tet src (add3 src dir) q2 q0 in
  let r2 := Volume_Tet src (add3 src dir) q0 q1 in
  let v012 := r0 + r1 + r2 in
  if eqR v012 0 then (false, None) else
  let v012_inv := 1 / v012 in
  let r0 := r0 * v012_inv in
  let r1 := r1 * v012_inv in
  let r2 := r2 * v012_inv in
  let p0 := add3 (add3 (mul3 r0 q0) (mul3 r1 q1)) (mul3 r2 q2) in
  (ltR eps r0 && ltR eps r1 && ltR eps r2, Some (p0, r0, r1, r2)).
(** geo_plane.cpp:126-135; None if the line is parallel to the plane *)
Definition Intersection_Plane3_Line3_n (o n s d : vec3) : option vec3 :=
  t <- ndiv (dot3 (sub3 o s) n) (dot3 d n) ;;
  Some (add3 s (mul3 t d)).
(** geo_tet.cpp:83-92, 94-113: r0, r1 and r2; None if the tetrahedron is flat.  The function always returns true *)
Definition barycentricCoord_Origin_Tet (p0 p1 p2 p3 : vec3) : option (R * R * R) :=
  let v0 := Volume_OrgTet p1 p2 p3 in
  let v1 := Volume_OrgTet p2 p0 p3 in
  let v2 := Volume_OrgTet p1 p3 p0 in
  let v3 := Volume_OrgTet p1 p0 p2 in
  vt_inv <- ndiv 1 (v0 + v1 + v2 + v3) ;;
  Some (v0 * vt_inv, v1 * vt_inv, v2 * vt_inv).

(** geo_tri.cpp:236-241: the point of an edge with the value 0, from the values at its ends; None for 1/0 times a zero vector *)
Definition cut (d0 d1 : R) (p0 p1 : vec3) : option vec3 :=
  w <- ndiv 1 (d0 - d1) ;; Some (mul3 w (sub3 (mul3 d0 p1) (mul3 d1 p0))).
(** geo_tri.cpp:243-261, 263-281: the ends of the part of a triangle in the plane of the other one, in the order of their z.  A NaN point makes
    the assertion fail.  A cut that is not used may be NaN *)
Definition section (vz : vec3) (d0 d1 d2 : R) (p0 p1 p2 : vec3) : option (vec3 * vec3) :=
  let p01 := cut d0 d1 p0 p1 in
  let p12 := cut d1 d2 p1 p2 in
  let p20 := cut d2 d0 p2 p0 in
  let '(ps, pe) := if ltR 0 (d0 * d1) then (p20, p12) else if ltR 0 (d1 * d2) then (p01, p20) else (p12, p01) in
  ps <- ps ;; pe <- pe ;;
  let '(ps, pe) := if ltR (dot3 pe vz) (dot3 ps vz) then (pe, ps) else (ps, pe) in
  assertb (negb (ltR (dot3 pe vz) (dot3 ps vz))) ;;;
  Some (ps, pe).
(** geo_tri.cpp:203-304, the part after the corners are read: Some None is false, Some (Some (P0, P1)) is true *)
Definition tri_pair (p0 p1 p2 q0 q1 q2 : vec3) : option (option (vec3 * vec3)) :=
  let np := Normal_Tri3 p0 p1 p2 in
  let nq := Normal_Tri3 q0 q1 q2 in
  let dp0 := dot3 (sub3 p0 q0) nq in
  let dp1 := dot3 (sub3 p1 q0) nq in
  let dp2 := dot3 (sub3 p2 q0) nq in
  let dq0 := dot3 (sub3 q0 p0) np in
  let dq1 := dot3 (sub3 q1 p0) np in
  let dq2 := dot3 (sub3 q2 p0) np in
  if Bool.eqb (ltR 0 dp0) (ltR 0 dp1) && Bool.eqb (ltR 0 dp1) (ltR 0 dp2) then Some None else
  if Bool.eqb (ltR 0 dq0) (ltR 0 dq1) && Bool.eqb (ltR 0 dq1) (ltR 0 dq2) then Some None else
  let vz := cross3 np nq in
  '(ps, pe) <- section vz dp0 dp1 dp2 p0 p1 p2 ;;
  let zps := dot3 ps vz in
  let zpe := dot3 pe vz in
  '(qs, qe) <- section vz dq0 dq1 dq2 q0 q1 q2 ;;
  let zqs := dot3 qs vz in
  let zqe := dot3 qe vz in
  if ltR zqe zps || ltR zpe zqs then Some None else
  let P := (if ltR zqs zps && ltR zps zqe then [ps] else []) ++ (if ltR zqs zpe && ltR zpe zqe then [pe] else []) ++
           (if ltR zps zqs && ltR zqs zpe then [qs] else []) ++ (if ltR zps zqe && ltR zqe zpe then [qe] else []) in
  match P with [P0; P1] => Some (Some (P0, P1)) | _ => Some None end.
(** geo_tri.cpp:203-304; reads outside of the arrays are None *)
Definition xyz (aXYZ : list R) (i : nat) : option vec3 :=
  x <- vget aXYZ (i * 3 + 0) ;; y <- vget aXYZ (i * 3 + 1) ;; z <- vget aXYZ (i * 3 + 2) ;; Some (V3 x y z).
(** geo_tri.cpp:203-304 *)
Definition isIntersectTriPair (itri jtri : nat) (aTri : list nat) (aXYZ : list R) : option (option (vec3 * vec3)) :=
  i0 <- vget aTri (itri * 3 + 0) ;; i1 <- vget aTri (itri * 3 + 1) ;; i2 <- vget aTri (itri * 3 + 2) ;;
  j0 <- vget aTri (jtri * 3 + 0) ;; j1 <- vget aTri (jtri * 3 + 1) ;; j2 <- vget aTri (jtri * 3 + 2) ;;
  if ((i0 =? j0) || (i0 =? j1) || (i0 =? j2))%nat then Some None else
  if ((i1 =? j0) || (i1 =? j1) || (i1 =? j2))%nat then Some None else
  if ((i2 =? j0) || (i2 =? j1) || (i2 =? j2))%nat then Some None else
  p0 <- xyz aXYZ i0 ;; p1 <- xyz aXYZ i1 ;; p2 <- xyz aXYZ i2 ;;
  q0 <- xyz aXYZ j0 ;; q1 <- xyz aXYZ j1 ;; q2 <- xyz aXYZ j2 ;;
  tri_pair p0 p1 p2 q0 q1 q2.
