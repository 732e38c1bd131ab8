(** Model of /repo/include/delfem2/quat.cpp, quat.h and of the quaternion/matrix conversions in mat3_funcs.cpp and mat4.cpp.
    Real numbers stand for float/double.  A fixed-size array is a record, its elements in storage order.  A division by zero or the root of a negative number is undefined (None). *)
From Coq Require Import List Arith Bool Reals.
Import ListNotations.
From Verif Require Import Imp PrModel.
Open Scope R_scope.

(** q[0..3] = x, y, z, w (quat.h:225, 298-303) *)
Record quat := Q4 { qx : R; qy : R; qz : R; qw : R }.
Record vec3 := V3 { vx : R; vy : R; vz : R }.
(** row-major 3x3 *)
Record mat3 := M3 { m0 : R; m1 : R; m2 : R; m3 : R; m4 : R; m5 : R; m6 : R; m7 : R; m8 : R }.

(** quat.cpp:17-23 *)
Definition Dot_Quat (p q : quat) : R := qx p * qx q + qy p * qy q + qz p * qz q + qw p * qw q.
(** quat.cpp:26-30 *)
Definition Length_Quat (q : quat) : R := sqrt (qx q * qx q + qy q * qy q + qz q * qz q + qw q * qw q).
(** quat.cpp:37-48; CQuat::normalize quat.cpp:330-340 is the same *)
Definition Normalize_Quat (q : quat) : option quat :=
  invlen <- div 1 (sqrt (qx q * qx q + qy q * qy q + qz q * qz q + qw q * qw q)) ;;
  Some (Q4 (qx q * invlen) (qy q * invlen) (qz q * invlen) (qw q * invlen)).
(** quat.cpp:56-62 *)
Definition Quat_Identity : quat := Q4 0 0 0 1.
(** quat.cpp:74-92 *)
Definition QuatVec (q : quat) (v : vec3) : vec3 :=
  let x2 := qx q * qx q * 2 in
  let y2 := qy q * qy q * 2 in
  let z2 := qz q * qz q * 2 in
  let xy := qx q * qy q * 2 in
  let yz := qy q * qz q * 2 in
  let zx := qz q * qx q * 2 in
  let xw := qx q * qw q * 2 in
  let yw := qy q * qw q * 2 in
  let zw := qz q * qw q * 2 in
  V3 ((1 - y2 - z2) * vx v + (xy - zw) * vy v + (zx + yw) * vz v)
     ((xy + zw) * vx v + (1 - z2 - x2) * vy v + (yz - xw) * vz v)
     ((zx - yw) * vx v + (yz + xw) * vy v + (1 - x2 - y2) * vz v).
(** quat.cpp:104-113 *)
Definition QuatQuat (p q : quat) : quat :=
  Q4 (qw p * qx q + qx p * qw q + qy p * qz q - qz p * qy q)
     (qw p * qy q - qx p * qz q + qy p * qw q + qz p * qx q)
     (qw p * qz q + qx p * qy q - qy p * qx q + qz p * qw q)
     (qw p * qw q - qx p * qx q - qy p * qy q - qz p * qz q).
(** quat.cpp:123-140 *)
Definition QuatConjVec (q : quat) (v : vec3) : vec3 :=
  let x2 := qx q * qx q * 2 in
  let y2 := qy q * qy q * 2 in
  let z2 := qz q * qz q * 2 in
  let xy := qx q * qy q * 2 in
  let yz := qy q * qz q * 2 in
  let zx := qz q * qx q * 2 in
  let xw := qx q * qw q * 2 in
  let yw := qy q * qw q * 2 in
  let zw := qz q * qw q * 2 in
  V3 ((1 - y2 - z2) * vx v + (xy + zw) * vy v + (zx - yw) * vz v)
     ((xy - zw) * vx v + (1 - z2 - x2) * vy v + (yz + xw) * vz v)
     ((zx + yw) * vx v + (yz - xw) * vy v + (1 - x2 - y2) * vz v).
(** quat.cpp:161-174 *)
Definition Quat_Bryant (x y z : R) : quat :=
  let half := 1 / 2 in
  let dqx := Q4 (sin (x * half)) 0 0 (cos (x * half)) in
  let dqy := Q4 0 (sin (y * half)) 0 (cos (y * half)) in
  let dqz := Q4 0 0 (sin (z * half)) (cos (z * half)) in
  let qtmp_yx := QuatQuat dqy dqx in
  QuatQuat dqz qtmp_yx.
(** quat.cpp:184-210; v0[ia] outside of 0..2 is undefined *)
Definition Quaternion_EulerAngle (rads : list R) (axis_idxs : list nat) : option quat :=
  forn 0 3 (fun i q =>
    ar <- vget rads i ;;
    ia <- vget axis_idxs i ;;
    v0 <- vset [0; 0; 0] ia 1 ;;
    a <- vget v0 0 ;; b <- vget v0 1 ;; c <- vget v0 2 ;;
    let dq := Q4 (sin (ar / 2) * a) (sin (ar / 2) * b) (sin (ar / 2) * c) (cos (ar / 2)) in
    Some (QuatQuat q dq)) (Q4 0 0 0 1).
(** quat.cpp:225-243 *)
Definition Quat_CartesianAngle (a : vec3) : option quat :=
  let half := 1 / 2 in
  let sqlen := vx a * vx a + vy a * vy a + vz a * vz a in
  if ltR sqlen (1 / 10 ^ 10) then Some (Q4 (half * vx a) (half * vy a) (half * vz a) (1 - (125 / 1000) * sqlen)) else
  let lena := sqrt sqlen in
  x <- div (sin (lena * half) * vx a) lena ;;
  y <- div (sin (lena * half) * vy a) lena ;;
  z <- div (sin (lena * half) * vz a) lena ;;
  Some (Q4 x y z (cos (lena * half))).
(** quat.cpp:256-262, with the constructor CQuat(w,x,y,z) of quat.h:238 *)
Definition quat_add (l r : quat) : quat := Q4 (qx l + qx r) (qy l + qy r) (qz l + qz r) (qw l + qw r).
(** quat.cpp:272-278 *)
Definition quat_sub (l r : quat) : quat := Q4 (qx l - qx r) (qy l - qy r) (qz l - qz r) (qw l - qw r).
(** quat.cpp:304-311 *)
Definition quat_scale (l : quat) (r : R) : quat := Q4 (qx l * r) (qy l * r) (qz l * r) (qw l * r).
(** quat.h:253-256 *)
Definition conjugate (q : quat) : quat := Q4 (- qx q) (- qy q) (- qz q) (qw q).
(** quat.cpp:347-354 *)
Definition SetSmallerRotation (q : quat) : quat := if ltR 0 (qw q) then q else Q4 (- qx q) (- qy q) (- qz q) (- qw q).
(** std::sqrt, std::acos: undefined outside of their domains *)
Definition csqrt (x : R) : option R := if ltR x 0 then None else Some (sqrt x).
Definition cacos (x : R) : option R := if ltR x (-1) || ltR 1 x then None else Some (acos x).
(** quat.cpp:363-383 *)
Definition SphericalLinearInterp (q0 q1 : quat) (t : R) : option quat :=
  let qr := Dot_Quat q0 q1 in
  let ss := 1 - qr * qr in
  if eqR ss 0 then Some q0 else
  sp <- csqrt ss ;;
  ph <- cacos qr ;;
  let pt := ph * t in
  t1 <- div (sin pt) sp ;;
  t0 <- div (sin (ph - pt)) sp ;;
  Some (Q4 (t0 * qx q0 + t1 * qx q1) (t0 * qy q0 + t1 * qy q1) (t0 * qz q0 + t1 * qz q1) (t0 * qw q0 + t1 * qw q1)).

(** mat3_funcs.cpp:452-474 *)
Definition Mat3_Quat (q : quat) : mat3 :=
  let x2 := qx q * qx q * 2 in
  let y2 := qy q * qy q * 2 in
  let z2 := qz q * qz q * 2 in
  let xy := qx q * qy q * 2 in
  let yz := qy q * qz q * 2 in
  let zx := qz q * qx q * 2 in
  let xw := qx q * qw q * 2 in
  let yw := qy q * qw q * 2 in
  let zw := qz q * qw q * 2 in
  M3 (1 - y2 - z2) (xy - zw) (zx + yw) (xy + zw) (1 - z2 - x2) (yz - xw) (zx - yw) (yz + xw) (1 - x2 - y2).
(** mat3_funcs.cpp:409-443 *)
Definition Quat_Mat3 (p : mat3) : option quat :=
  let smat := [
      1 + m0 p - m4 p - m8 p; m1 p + m3 p; m2 p + m6 p; m7 p - m5 p;
      m3 p + m1 p; 1 - m0 p + m4 p - m8 p; m5 p + m7 p; m2 p - m6 p;
      m2 p + m6 p; m5 p + m7 p; 1 - m0 p - m4 p + m8 p; m3 p - m1 p;
      m7 p - m5 p; m2 p - m6 p; m3 p - m1 p; 1 + m0 p + m4 p + m8 p] in
  s00 <- vget smat (0 * 4 + 0) ;; s11 <- vget smat (1 * 4 + 1) ;;
  let imax := if ltR s11 s00 then 0%nat else 1%nat in
  sii <- vget smat (imax * 4 + imax) ;; s22 <- vget smat (2 * 4 + 2) ;;
  let imax := if ltR s22 sii then imax else 2%nat in
  sii <- vget smat (imax * 4 + imax) ;; s33 <- vget smat (3 * 4 + 3) ;;
  let imax := if ltR s33 sii then imax else 3%nat in
  sii <- vget smat (imax * 4 + imax) ;;
  root <- csqrt sii ;;
  quat <- vset [0; 0; 0; 0] imax (root / 2) ;;
  quat <- forn 0 4 (fun k quat =>
    if (k =? imax)%nat then Some quat else
    s <- vget smat (imax * 4 + k) ;;
    qi <- vget quat imax ;;
    x <- div (s * (1 / 4)) qi ;;
    vset quat k x) quat ;;
  x <- vget quat 0 ;; y <- vget quat 1 ;; z <- vget quat 2 ;; w <- vget quat 3 ;;
  Some (Q4 x y z w).
(** mat4.cpp:667-696 (rows of the 4x4 array); CMat4::Quat mat4.cpp:764-780 returns the same entries *)
Definition Mat4_AffineQuaternion (q : quat) : list R :=
  let x2 := qx q * qx q * 2 in
  let y2 := qy q * qy q * 2 in
  let z2 := qz q * qz q * 2 in
  let xy := qx q * qy q * 2 in
  let yz := qy q * qz q * 2 in
  let zx := qz q * qx q * 2 in
  let xw := qx q * qw q * 2 in
  let yw := qy q * qw q * 2 in
  let zw := qz q * qw q * 2 in
  [1 - y2 - z2; xy - zw; zx + yw; 0; xy + zw; 1 - z2 - x2; yz - xw; 0; zx - yw; yz + xw; 1 - x2 - y2; 0; 0; 0; 0; 1].
(** mat4.cpp:707-736 *)
Definition Mat4_AffineQuaternionConjugate (q : quat) : list R :=
  let x2 := qx q * qx q * 2 in
  let y2 := qy q * qy q * 2 in
  let z2 := qz q * qz q * 2 in
  let xy := qx q * qy q * 2 in
  let yz := qy q * qz q * 2 in
  let zx := qz q * qx q * 2 in
  let xw := qx q * qw q * 2 in
  let yw := qy q * qw q * 2 in
  let zw := qz q * qw q * 2 in
  [1 - y2 - z2; xy + zw; zx - yw; 0; xy - zw; 1 - z2 - x2; yz + xw; 0; zx + yw; yz - xw; 1 - x2 - y2; 0; 0; 0; 0; 1].
(** mat4.cpp:649-664 *)
Definition Mat4_ScaleRotTrans (scale : R) (q : quat) (trans : vec3) : option (list R) :=
  m <- forn 0 3 (fun i m => forn 0 3 (fun j m => vmod m (i * 4 + j) (fun x => x * scale)) m) (Mat4_AffineQuaternion q) ;;
  m <- vset m (0 * 4 + 3) (vx trans) ;;
  m <- vset m (1 * 4 + 3) (vy trans) ;;
  vset m (2 * 4 + 3) (vz trans).
