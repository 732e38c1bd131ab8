(** Model of the nearest-point functions of /repo/include/delfem2/geo_edge.cpp, geo_line.cpp, geo_plane.cpp and geo_tri.cpp.

    Real numbers stand for float and double; the tolerances are the literals of the code.  CVec3 is [vec3]; the functions that
    also exist for CVec2 use only sums, multiples and dot products, so that a CVec2 is a [vec3] with third coordinate 0.
    A failed assertion is [None].  Where the code can divide zero by zero and go on with NaN, the NaN is [None] too and the
    comment says so. *)
From Coq Require Import List Arith Bool Reals.
Import ListNotations.
From Verif Require Import Imp PrModel QuatModel.
Open Scope R_scope.

(** vec3.h:60-135, 264-300 (sums, differences, multiples, dot and cross products, norm) *)
Definition add3 (u v : vec3) : vec3 := V3 (vx u + vx v) (vy u + vy v) (vz u + vz v).
Definition sub3 (u v : vec3) : vec3 := V3 (vx u - vx v) (vy u - vy v) (vz u - vz v).
Definition mul3 (s : R) (v : vec3) : vec3 := V3 (s * vx v) (s * vy v) (s * vz v).
Definition dot3 (u v : vec3) : R := vx u * vx v + vy u * vy v + vz u * vz v.
Definition cross3 (u v : vec3) : vec3 := V3 (vy u * vz v - vz u * vy v) (vz u * vx v - vx u * vz v) (vx u * vy v - vy u * vx v).
Definition norm3 (v : vec3) : R := sqrt (dot3 v v).
Definition e10 : R := / 10 ^ 10.
Definition e20 : R := / 10 ^ 20.

(** geo_edge.cpp:26-44; the point and r0 *)
Definition Nearest_Origin_Edge (p0 p1 : vec3) : vec3 * R :=
  let d := sub3 p1 p0 in
  let a := dot3 d d in
  if ltR a e20 then (mul3 (1/2) (add3 p0 p1), 1/2) else
  let b := dot3 d p0 in
  let r0 := - b / a in
  let r0 := if ltR r0 0 then 0 else r0 in
  let r0 := if ltR 1 r0 then 1 else r0 in
  (add3 (mul3 (1 - r0) p0) (mul3 r0 p1), r0).
(** geo_edge.cpp:74-82, 98-106 *)
Definition Nearest_Edge_Point (p s e : vec3) : vec3 * R :=
  let '(x, t) := Nearest_Origin_Edge (sub3 s p) (sub3 e p) in (add3 x p, t).
(** geo_edge.cpp:116-122 *)
Definition Distance_Edge_Point (c s e : vec3) : R := norm3 (fst (Nearest_Origin_Edge (sub3 s c) (sub3 e c))).
(** geo_edge.cpp:288-313 *)
Definition Nearest_Edge3_Point3 (point_pos edge_pos0 edge_pos1 : vec3) : vec3 :=
  let d := sub3 edge_pos1 edge_pos0 in
  let t :=
    if ltR e20 (dot3 d d) then
      let ps := sub3 edge_pos0 point_pos in
      let a := dot3 d d in
      let b := dot3 d ps in
      let t := - b / a in
      let t := if ltR t 0 then 0 else t in
      if ltR 1 t then 1 else t
    else 1/2 in
  add3 edge_pos0 (mul3 t d).

(** geo_line.cpp:137-150 *)
Definition Nearest_Line3_Point3 (point line_src line_dir : vec3) : option vec3 :=
  assertb (ltR e20 (dot3 line_dir line_dir)) ;;;
  let a := dot3 line_dir line_dir in
  let b := dot3 line_dir (sub3 line_src point) in
  let t := - b / a in
  Some (add3 line_src (mul3 t line_dir)).
(** geo_line.cpp:164-180, the version that also gives the parameter *)
Definition Nearest_Line3_Point3_t (p s d : vec3) : vec3 * R :=
  if ltR (dot3 d d) e20 then (s, 0) else
  let a := dot3 d d in
  let b := dot3 d (sub3 s p) in
  let t := - b / a in
  (add3 s (mul3 t d), t).
(** geo_line.cpp:217-238 (184-203 without the parameters): D, Da, Db, Dta, Dtb *)
Definition Nearest_Line3_Line3 (pa va pb vb : vec3) : R * vec3 * vec3 * R * R :=
  let xaa := dot3 va va in
  let xab := dot3 vb va in
  let xbb := dot3 vb vb in
  let D := xaa * xbb - xab * xab in
  let xac := dot3 va (sub3 pb pa) in
  let xbc := dot3 vb (sub3 pb pa) in
  let Dta := xbb * xac - xab * xbc in
  let Dtb := xab * xac - xaa * xbc in
  (D, add3 (mul3 D pa) (mul3 Dta va), add3 (mul3 D pb) (mul3 Dtb vb), Dta, Dtb).
(** geo_edge.cpp:317-354: nearest_lineseg and nearest_line; abs is taken to be the one for double *)
Definition Nearest_Edge3_Line3 (lineseg_start lineseg_end line_origin line_direction : vec3) : option (vec3 * vec3) :=
  let '(D0, Da0, Db0, Dta0, Dtb0) := Nearest_Line3_Line3 lineseg_start (sub3 lineseg_end lineseg_start) line_origin line_direction in
  if ltR (Rabs D0) e10 then
    let nearest_lineseg := mul3 (1/2) (add3 lineseg_start lineseg_end) in
    nearest_line <- Nearest_Line3_Point3 nearest_lineseg line_origin line_direction ;;
    Some (nearest_lineseg, nearest_line)
  else
  let ta := Dta0 / D0 in
  if ltR 0 ta && ltR ta 1 then Some (mul3 (/ D0) Da0, mul3 (/ D0) Db0) else
  p1 <- Nearest_Line3_Point3 lineseg_start line_origin line_direction ;;
  p2 <- Nearest_Line3_Point3 lineseg_end line_origin line_direction ;;
  let Dist1 := norm3 (sub3 p1 lineseg_start) in
  let Dist2 := norm3 (sub3 p2 lineseg_end) in
  if ltR Dist1 Dist2 then Some (lineseg_start, p1) else Some (lineseg_end, p2).

(** geo_edge.cpp:370-415: the distance, ratio_p and ratio_q; a ratio that is 0/0, x/0 or computed from NaN is [None]: then the comparisons
    with it are false.  The distance of the parallel case is [None] if it is NaN. *)
Definition ndiv (a b : R) : option R := if eqR b 0 then None else Some (a / b).
Definition minR (a b : R) : R := if ltR a b then a else b.
Definition maxR (a b : R) : R := if ltR b a then a else b.
Definition Distance_Edge3_Edge3 (p0 p1 q0 q1 : vec3) : option R * option R * option R :=
  let vp := sub3 p1 p0 in
  let vq := sub3 q1 q0 in
  if ltR (norm3 (cross3 vp vq)) e10 then
    let pq0 := sub3 p0 q0 in
    if eqR (norm3 vp) 0 then (None, None, None) else
    let nvp := mul3 (/ norm3 vp) vp in
    let vert := sub3 pq0 (mul3 (dot3 pq0 nvp) nvp) in
    let dist := norm3 vert in
    let lp0 := dot3 p0 nvp in
    let lp1 := dot3 p1 nvp in
    let lq0 := dot3 q0 nvp in
    let lq1 := dot3 q1 nvp in
    let p_min := minR lp0 lp1 in
    let p_max := maxR lp0 lp1 in
    let q_min := minR lq0 lq1 in
    let q_max := maxR lq0 lq1 in
    let lm :=
      if ltR p_max q_min then (p_max + q_min) * (1/2)
      else if ltR q_max p_min then (q_max + p_min) * (1/2)
      else if ltR p_max q_max then (p_max + q_min) * (1/2)
      else (q_max + p_min) * (1/2) in
    (Some dist, ndiv (lm - lp0) (lp1 - lp0), ndiv (lm - lq0) (lq1 - lq0))
  else
    let t0 := dot3 vp vp in
    let t1 := dot3 vq vq in
    let t2 := dot3 vp vq in
    let t3 := dot3 vp (sub3 q0 p0) in
    let t4 := dot3 vq (sub3 q0 p0) in
    let det := t0 * t1 - t2 * t2 in
    let invdet := 1 / det in
    let ratio_p := (t1 * t3 - t2 * t4) * invdet in
    let ratio_q := (t2 * t3 - t0 * t4) * invdet in
    let pc := add3 p0 (mul3 ratio_p vp) in
    let qc := add3 q0 (mul3 ratio_q vq) in
    (Some (norm3 (sub3 pc qc)), Some ratio_p, Some ratio_q).
(** geo_edge.cpp:437-453, the rejection along one axis: all of the four comparisons are true *)
Definition apart_axis (f : vec3 -> R) (delta : R) (p0 p1 q0 q1 : vec3) : bool :=
  (ltR (f q0 + delta) (f p0) && ltR (f q0 + delta) (f p1) && ltR (f q1 + delta) (f p0) && ltR (f q1 + delta) (f p1)) ||
  (ltR (f p0) (f q0 - delta) && ltR (f p1) (f q0 - delta) && ltR (f p0) (f q1 - delta) && ltR (f p1) (f q1 - delta)).
(** geo_edge.cpp:425-464; a comparison with NaN is false, and so is the last one *)
Definition IsContact_Edge3_Edge3_Proximity (ino0 ino1 jno0 jno1 : nat) (p0 p1 q0 q1 : vec3) (delta : R) : bool :=
  if ((ino0 =? jno0) || (ino0 =? jno1) || (ino1 =? jno0) || (ino1 =? jno1))%nat then false else
  if apart_axis vx delta p0 p1 q0 q1 || apart_axis vy delta p0 p1 q0 q1 || apart_axis vz delta p0 p1 q0 q1 then false else
  let '(dist, ratio_p, ratio_q) := Distance_Edge3_Edge3 p0 p1 q0 q1 in
  match dist with Some dist => if ltR delta dist then false else
    match ratio_p, ratio_q with
    | Some ratio_p, Some ratio_q =>
        if ltR ratio_p 0 then false else
        if ltR 1 ratio_p then false else
        if ltR ratio_q 0 then false else
        if ltR 1 ratio_q then false else
        let pm := add3 (mul3 (1 - ratio_p) p0) (mul3 ratio_p p1) in
        let qm := add3 (mul3 (1 - ratio_q) q0) (mul3 ratio_q q1) in
        negb (ltR delta (norm3 (sub3 pm qm)))
    | _, _ => false
    end
  | None => false
  end.

(** geo_plane.cpp:39-48 *)
Definition Volume_OrgTet (v1 v2 v3 : vec3) : R :=
  (vx v1 * (vy v2 * vz v3 - vy v3 * vz v2) + vy v1 * (vz v2 * vx v3 - vz v3 * vx v2) + vz v1 * (vx v2 * vy v3 - vx v3 * vy v2)) * (1/6).
(** geo_tri.cpp:26-36; the literal 0.1666... is 1/6 *)
Definition Volume_Tet3 (v1 v2 v3 v4 : vec3) : R :=
  let a0 := (vx v2 - vx v1) * ((vy v3 - vy v1) * (vz v4 - vz v1) - (vy v4 - vy v1) * (vz v3 - vz v1)) in
  let a1 := - (vy v2 - vy v1) * ((vx v3 - vx v1) * (vz v4 - vz v1) - (vx v4 - vx v1) * (vz v3 - vz v1)) in
  let a2 := (vz v2 - vz v1) * ((vx v3 - vx v1) * (vy v4 - vy v1) - (vx v4 - vx v1) * (vy v3 - vy v1)) in
  (a0 + a1 + a2) * (1/6).
(** geo_plane.cpp:65-88: the point, r0 and r1 *)
Definition Nearest_Origin3_PlaneTri3 (q0 q1 q2 : vec3) : option (vec3 * R * R) :=
  assertb (ltR e10 (norm3 (sub3 q1 q0))) ;;;
  assertb (ltR e10 (norm3 (sub3 q2 q0))) ;;;
  assertb (ltR e10 (norm3 (sub3 q1 q2))) ;;;
  assertb (ltR e10 (norm3 (cross3 (sub3 q1 q0) (sub3 q2 q0)))) ;;;
  let c := cross3 (sub3 q1 q0) (sub3 q2 q0) in
  let n1 := mul3 (/ norm3 c) c in
  let v0 := Volume_OrgTet q1 q2 n1 in
  let v1 := Volume_OrgTet q2 q0 n1 in
  let v2 := Volume_OrgTet q0 q1 n1 in
  assertb (ltR e10 (Rabs (v0 + v1 + v2))) ;;;
  let vt_inv := 1 / (v0 + v1 + v2) in
  let r0 := v0 * vt_inv in
  let r1 := v1 * vt_inv in
  let r2 := v2 * vt_inv in
  Some (add3 (add3 (mul3 r0 q0) (mul3 r1 q1)) (mul3 r2 q2), r0, r1).
(** geo_tri.cpp:125-177: the point, r0 and r1 *)
Definition Nearest_Origin3_Tri3 (q0 q1 q2 : vec3) : option (vec3 * R * R) :=
  pl <- (if ltR e10 (norm3 (cross3 (sub3 q1 q0) (sub3 q2 q0))) then r <- Nearest_Origin3_PlaneTri3 q0 q1 q2 ;; Some (Some r) else Some None) ;;
  let inside := match pl with Some (p012, r0, r1) => ltR 0 r0 && ltR 0 r1 && ltR 0 (1 - r0 - r1) | None => false end in
  match inside, pl with
  | true, Some r => Some r
  | _, _ =>
    let st := (q0, norm3 q0, 1, 0) in
    let '(p12, s2) := Nearest_Origin_Edge q1 q2 in
    let st := let '(p_min, d_min, r0, r1) := st in if ltR (norm3 p12) d_min then (p12, norm3 p12, 0, 1 - s2) else st in
    let '(p20, s0) := Nearest_Origin_Edge q2 q0 in
    let st := let '(p_min, d_min, r0, r1) := st in if ltR (norm3 p20) d_min then (p20, norm3 p20, s0, 0) else st in
    let '(p01, s1) := Nearest_Origin_Edge q0 q1 in
    let st := let '(p_min, d_min, r0, r1) := st in if ltR (norm3 p01) d_min then (p01, norm3 p01, 1 - s1, s1) else st in
    let '(p_min, d_min, r0, r1) := st in
    Some (p_min, r0, r1)
  end.

(** geo_tri.cpp:427-451: Normal_Tri3 and UnitNormalAreaTri3; the unit normal of a flat triangle is NaN in the code, it is not used there *)
Definition Normal_Tri3 (v1 v2 v3 : vec3) : vec3 :=
  V3 ((vy v2 - vy v1) * (vz v3 - vz v1) - (vz v2 - vz v1) * (vy v3 - vy v1))
     ((vz v2 - vz v1) * (vx v3 - vx v1) - (vx v2 - vx v1) * (vz v3 - vz v1))
     ((vx v2 - vx v1) * (vy v3 - vy v1) - (vy v2 - vy v1) * (vx v3 - vx v1)).
(** geo_tri.cpp:427-441 *)
Definition UnitNormalAreaTri3 (v1 v2 v3 : vec3) : vec3 * R :=
  let n := Normal_Tri3 v1 v2 v3 in
  let a := norm3 n / 2 in
  let invlen := 1 / (a * 2) in
  (mul3 invlen n, a).
(** geo_tri.cpp:57-120: the point, r0 and r1.  A quotient of distances is 0/0 only if an edge has length 0; the code then gives NaN for r0 or r1 *)
Definition Nearest_Triangle3_Point3 (ps q0 q1 q2 : vec3) : option (vec3 * R * R) :=
  let '(n012, area) := UnitNormalAreaTri3 q0 q1 q2 in
  let pe := add3 ps n012 in
  let v012 := Volume_Tet3 ps q0 q1 q2 in
  face <- (if ltR e10 (Rabs v012) then
      let sign := if ltR 0 v012 then 1 else -1 in
      let v0 := Volume_Tet3 ps q1 q2 pe * sign in
      let v1 := Volume_Tet3 ps q2 q0 pe * sign in
      let v2 := Volume_Tet3 ps q0 q1 pe * sign in
      assertb (ltR e10 (Rabs (v0 + v1 + v2))) ;;;
      let inv_v012 := 1 / (v0 + v1 + v2) in
      let r0 := v0 * inv_v012 in
      let r1 := v1 * inv_v012 in
      let r2 := 1 - r0 - r1 in
      let tol := / 10 ^ 4 in
      if ltR (- tol) r0 && ltR (- tol) r1 && ltR (- tol) r2 then Some (Some (add3 (add3 (mul3 r0 q0) (mul3 r1 q1)) (mul3 r2 q2), r0, r1)) else Some None
    else Some None) ;;
  match face with Some r => Some r | None =>
    let r12 := Nearest_Edge3_Point3 ps q1 q2 in
    let r20 := Nearest_Edge3_Point3 ps q2 q0 in
    let r01 := Nearest_Edge3_Point3 ps q0 q1 in
    let d12 := norm3 (sub3 r12 ps) in
    let d20 := norm3 (sub3 r20 ps) in
    let d01 := norm3 (sub3 r01 ps) in
    let last := let r0 := norm3 (sub3 r01 q1) / norm3 (sub3 q0 q1) in Some (r01, r0, 1 - r0) in
    if ltR d12 d20 then
      if ltR d12 d01 then Some (r12, 0, norm3 (sub3 r12 q2) / norm3 (sub3 q1 q2)) else last
    else
      if ltR d20 d01 then Some (r20, norm3 (sub3 r20 q2) / norm3 (sub3 q0 q2), 0) else last
  end.

(** geo_tri.cpp:319-330; NaN (None) if p0 is the first corner or the triangle is flat *)
Definition ProjectPointOnTriangle (p0 tri_p1 tri_p2 tri_p3 : vec3) : option vec3 :=
  let normal := cross3 (sub3 tri_p2 tri_p1) (sub3 tri_p3 tri_p1) in
  cosAlpha <- ndiv (dot3 (sub3 p0 tri_p1) normal) (norm3 (sub3 p0 tri_p1) * norm3 normal) ;;
  let lenP0ProjectedP0 := norm3 (sub3 tri_p1 p0) * cosAlpha in
  let p0ProjectedP0 := mul3 (/ norm3 normal) (mul3 (-1 * lenP0ProjectedP0) normal) in
  Some (add3 p0 p0ProjectedP0).
(** geo_tri.cpp:383-406: the distance, w0 and w1; NaN (None) if the corners are on a line *)
Definition DistanceFaceVertex (p0 p1 p2 p3 : vec3) : option (R * R * R) :=
  let v20 := sub3 p0 p2 in
  let v21 := sub3 p1 p2 in
  let t0 := dot3 v20 v20 in
  let t1 := dot3 v21 v21 in
  let t2 := dot3 v20 v21 in
  let t3 := dot3 v20 (sub3 p3 p2) in
  let t4 := dot3 v21 (sub3 p3 p2) in
  let det := t0 * t1 - t2 * t2 in
  invdet <- ndiv 1 det ;;
  let w0 := (t1 * t3 - t2 * t4) * invdet in
  let w1 := (- t2 * t3 + t0 * t4) * invdet in
  let w2 := 1 - w0 - w1 in
  let pw := add3 (add3 (mul3 w0 p0) (mul3 w1 p1)) (mul3 w2 p2) in
  Some (norm3 (sub3 pw p3), w0, w1).
