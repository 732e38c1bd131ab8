(** Model of 4x4 matrices: inversion by elimination (for any size), products, projections and affine maps of /repo/include/delfem2/mat4.cpp and mat4.h.
    Numbers are reals.  A matrix is the row-major list of its entries.  A loop that writes every entry of a new array once is a list of these entries.
    A division by zero is [None] in the elimination with exchange of rows; elsewhere a quotient by zero is inf or NaN in the code and some real here: the
    theorems are about cases in which no divisor is zero. *)
From Coq Require Import List Arith Bool ZArith Reals.
Import ListNotations.
From Verif Require Import Imp PrModel QuatModel.
Open Scope R_scope.

(** mat4.cpp:37-45, 82-90: the rows other than i, minus multiples of row i *)
Definition elim_others (a : list R) (n i : nat) : option (list R) :=
  forn 0 n (fun j a =>
    if (j =? i)%nat then Some a else
    tmp1 <- vget a (j * n + i) ;;
    a <- vset a (j * n + i) 0 ;;
    forn 0 n (fun k a => x <- vget a (i * n + k) ;; vmod a (j * n + k) (fun y => y - tmp1 * x)) a) a.

(** mat4.cpp:17-47.  The result is a and info. *)
Definition CalcInvMat (a : list R) (n : nat) : option (list R * Z) :=
  forb 0 n (fun i '(a, info) =>
    p <- vget a (i * n + i) ;;
    if ltR (Rabs p) (/ 10 ^ 30) then Some ((a, 1%Z), true) else
    let info := if ltR p 0 then (info - 1)%Z else info in
    let tmp1 := 1 / p in
    a <- vset a (i * n + i) 1 ;;
    a <- forn 0 n (fun k a => vmod a (i * n + k) (fun x => x * tmp1)) a ;;
    a <- elim_others a n i ;;
    Some ((a, info), false)) (a, 0%Z).

(** mat4.cpp:54-61: the row of the largest entry of column ipv at or below the diagonal; UINT_MAX is None *)
Definition find_pivot (a : list R) (n ipv : nat) : option (R * option nat) :=
  forn ipv n (fun i '(big, pr) =>
    x <- vget a (i * n + ipv) ;;
    if ltR (Rabs x) big then Some (big, pr) else Some (Rabs x, Some i)) (0, None).
(** mat4.cpp:66-72 *)
Definition swap_rows (a : list R) (n p q : nat) : option (list R) :=
  if (p =? q)%nat then Some a else
  forn 0 n (fun i a =>
    temp <- vget a (p * n + i) ;;
    x <- vget a (q * n + i) ;;
    a <- vset a (p * n + i) x ;;
    vset a (q * n + i) temp) a.
(** mat4.cpp:95-100 *)
Definition swap_cols (a : list R) (n p q : nat) : option (list R) :=
  if (p =? q)%nat then Some a else
  forn 0 n (fun i a =>
    temp <- vget a (i * n + p) ;;
    x <- vget a (i * n + q) ;;
    a <- vset a (i * n + p) x ;;
    vset a (i * n + q) temp) a.
(** mat4.cpp:49-103.  The result is a, the array tmp of exchanged rows, and the returned flag. *)
Definition CalcInvMatPivot (a : list R) (n : nat) (tmp : list nat) : option (list R * list nat * bool) :=
  '(a, row, ok) <- forb 0 n (fun ipv '(a, row, _) =>
    '(big, pr) <- find_pivot a n ipv ;;
    match pr with
    | None => Some ((a, row, false), true)
    | Some pivot_row =>
        row <- vset row ipv pivot_row ;;
        a <- swap_rows a n ipv pivot_row ;;
        p <- vget a (ipv * n + ipv) ;;
        assertb (negb (eqR p 0)) ;;;
        let inv_pivot := 1 / p in
        a <- vset a (ipv * n + ipv) 1 ;;
        a <- forn 0 n (fun j a => vmod a (ipv * n + j) (fun x => x * inv_pivot)) a ;;
        a <- elim_others a n ipv ;;
        Some ((a, row, true), false)
    end) (a, tmp, true) ;;
  if ok : bool then
    a <- ford n 0 (fun j1 a => let j := (j1 - 1)%nat in q <- vget row j ;; swap_cols a n j q) a ;;
    Some (a, row, true)
  else Some (a, row, false).

(** mat4.cpp:744-757 and 827-833.  The local array tmp starts with arbitrary values. *)
Definition Inverse_Mat4 (m : list R) (tmp : list nat) : option (list R) :=
  '(minv, info) <- CalcInvMat m 4 ;;
  if (info =? 0)%Z then Some minv else
  '(minv, _, _) <- CalcInvMatPivot m 4 tmp ;;
  Some minv.

(** Entries of a 4x4 matrix. *)
Definition e (A : list R) (i j : nat) : R := nth (i * 4 + j) A 0.
Definition mk4 (f : nat -> nat -> R) : list R :=
  [f 0 0; f 0 1; f 0 2; f 0 3; f 1 0; f 1 1; f 1 2; f 1 3; f 2 0; f 2 1; f 2 2; f 2 3; f 3 0; f 3 1; f 3 2; f 3 3]%nat.
(** mat4.h:84-93, 483-491 *)
Definition Transpose_Mat4 (A : list R) : list R := mk4 (fun i j => e A j i).
(** mat4.h:135-150 and mat4.cpp:788-795 *)
Definition MatMat4 (A B : list R) : list R := mk4 (fun i j => e A i 0 * e B 0 j + e A i 1 * e B 1 j + e A i 2 * e B 2 j + e A i 3 * e B 3 j).
(** mat4.h:516-522 and mat4.cpp:519-527 *)
Definition Mat4_Identity : list R := [1; 0; 0; 0; 0; 1; 0; 0; 0; 0; 1; 0; 0; 0; 0; 1].
(** mat4.h:62-82 *)
Definition Mat4_Mat3 (K : list R) : list R :=
  [nth 0 K 0; nth 1 K 0; nth 2 K 0; 0; nth 3 K 0; nth 4 K 0; nth 5 K 0; 0; nth 6 K 0; nth 7 K 0; nth 8 K 0; 0; 0; 0; 0; 1].
(** mat4.h:95-116 *)
Definition Mat4_AffineTrans_RotTransl (Rm t : list R) : list R :=
  let r i j := nth (i * 3 + j) Rm 0 in
  [r 0%nat 0%nat; r 1%nat 0%nat; r 2%nat 0%nat; 0; r 0%nat 1%nat; r 1%nat 1%nat; r 2%nat 1%nat; 0; r 0%nat 2%nat; r 1%nat 2%nat; r 2%nat 2%nat; 0; nth 0 t 0; nth 1 t 0; nth 2 t 0; 1].

(** mat4.cpp:301-310 *)
Definition MatVec4 (A : list R) (x : quat) : quat :=
  let row i := e A i 0 * qx x + e A i 1 * qy x + e A i 2 * qz x + e A i 3 * qw x in Q4 (row 0%nat) (row 1%nat) (row 2%nat) (row 3%nat).
(** mat4.cpp:318-327 *)
Definition VecMat4 (x : quat) (A : list R) : quat :=
  let col i := e A 0 i * qx x + e A 1 i * qy x + e A 2 i * qz x + e A 3 i * qw x in Q4 (col 0%nat) (col 1%nat) (col 2%nat) (col 3%nat).
(** mat4.cpp:278-286 and mat4.h:241-247, 474-478 *)
Definition Mat4Vec3 (A : list R) (v : vec3) : vec3 :=
  let row i := e A i 0 * vx v + e A i 1 * vy v + e A i 2 * vz v in V3 (row 0%nat) (row 1%nat) (row 2%nat).
(** mat4.cpp:292-299 *)
Definition Vec3Mat4 (v : vec3) (A : list R) : vec3 :=
  let col i := vx v * e A 0 i + vy v * e A 1 i + vz v * e A 2 i in V3 (col 0%nat) (col 1%nat) (col 2%nat).
(** mat4.cpp:338-354 and mat4.h:466-468 *)
Definition Vec3_Mat4Vec3_Homography (A : list R) (x : vec3) : vec3 :=
  let y := MatVec4 A (Q4 (vx x) (vy x) (vz x) 1) in V3 (qx y / qw y) (qy y / qw y) (qz y / qw y).
(** mat4.cpp:362-371 and mat4.h:470-472 *)
Definition Vec2_Mat4Vec3_Homography (A : list R) (x : vec3) : R * R :=
  let y := MatVec4 A (Q4 (vx x) (vy x) (vz x) 1) in (qx y / qw y, qy y / qw y).
(** mat4.cpp:383-394 *)
Definition Vec3_Vec3Mat4_Homography (x : vec3) (A : list R) : vec3 :=
  let y := VecMat4 (Q4 (vx x) (vy x) (vz x) 1) A in V3 (qx y / qw y) (qy y / qw y) (qz y / qw y).
(** mat4.cpp:404-415 *)
Definition Vec3_Mat4Vec3_Affine (A : list R) (x : vec3) : vec3 :=
  let y := MatVec4 A (Q4 (vx x) (vy x) (vz x) 1) in V3 (qx y) (qy y) (qz y).

(** mat4.cpp:426-435 and mat4.h:523-529 *)
Definition Mat4_AffineScale (s : R) : list R := [s; 0; 0; 0; 0; s; 0; 0; 0; 0; s; 0; 0; 0; 0; 1].
(** mat4.h:442-448, 530-536 *)
Definition ScaleXYZ (sx sy sz : R) : list R := [sx; 0; 0; 0; 0; sy; 0; 0; 0; 0; sz; 0; 0; 0; 0; 1].
(** mat4.cpp:443-452, 464-474 and mat4.h:420-423, 546-561 *)
Definition Mat4_AffineTranslation (dx dy dz : R) : list R := [1; 0; 0; dx; 0; 1; 0; dy; 0; 0; 1; dz; 0; 0; 0; 1].
(** mat4.h:537-543 *)
Definition Skew (v : vec3) : list R := [0; - vz v; vy v; 0; vz v; 0; - vx v; 0; - vy v; vx v; 0; 0; 0; 0; 0; 1].
(** mat4.cpp:482-511 *)
Definition Mat4_AffineRotationRodriguez (dx dy dz : R) : list R :=
  let half := 1 / 2 in
  let one4th := 1 / 4 in
  let sqlen := dx * dx + dy * dy + dz * dz in
  let tmp1 := 1 / (1 + one4th * sqlen) in
  [1 + tmp1 * (half * dx * dx - half * sqlen); tmp1 * (- dz + half * dx * dy); tmp1 * (dy + half * dx * dz); 0;
   tmp1 * (dz + half * dy * dx); 1 + tmp1 * (half * dy * dy - half * sqlen); tmp1 * (- dx + half * dy * dz); 0;
   tmp1 * (- dy + half * dz * dx); tmp1 * (dx + half * dz * dy); 1 + tmp1 * (half * dz * dz - half * sqlen); 0;
   0; 0; 0; 1].
(** mat4.cpp:554-563 *)
Definition Rotate_Mat4AffineRodriguez (A : list R) (V : vec3) : list R := MatMat4 (Mat4_AffineRotationRodriguez (vx V) (vy V) (vz V)) A.
(** mat4.cpp:573-626 *)
Definition Mat4_AffineRotationCartesian (v : vec3) : list R :=
  let sqt := vx v * vx v + vy v * vy v + vz v * vz v in
  if ltR sqt (/ 10 ^ 20) then [1; - vz v; vy v; 0; vz v; 1; - vx v; 0; - vy v; vx v; 1; 0; 0; 0; 0; 1] else
  let t := sqrt sqt in
  let invt := 1 / t in
  let n0 := vx v * invt in
  let n1 := vy v * invt in
  let n2 := vz v * invt in
  let c0 := cos t in
  let s0 := sin t in
  [c0 + (1 - c0) * n0 * n0; - n2 * s0 + (1 - c0) * n0 * n1; n1 * s0 + (1 - c0) * n0 * n2; 0;
   n2 * s0 + (1 - c0) * n1 * n0; c0 + (1 - c0) * n1 * n1; - n0 * s0 + (1 - c0) * n1 * n2; 0;
   - n1 * s0 + (1 - c0) * n2 * n0; n0 * s0 + (1 - c0) * n2 * n1; c0 + (1 - c0) * n2 * n2; 0;
   0; 0; 0; 1].
(** mat4.cpp:634-641 *)
Definition Translate_Mat4Affine (A : list R) (V : vec3) : option (list R) :=
  A <- vmod A (0 * 4 + 3) (fun x => x + vx V) ;;
  A <- vmod A (1 * 4 + 3) (fun x => x + vy V) ;;
  vmod A (2 * 4 + 3) (fun x => x + vz V).

(** mat4.cpp:131-158 *)
Definition Mat4_AffineProjectionOrtho (xmin xmax ymin ymax zmin zmax : R) : list R :=
  [2 / (xmax - xmin); 0; 0; - (xmin + xmax) / (xmax - xmin);
   0; 2 / (ymax - ymin); 0; - (ymax + ymin) / (ymax - ymin);
   0; 0; 2 / (zmax - zmin); - (zmax + zmin) / (zmax - zmin);
   0; 0; 0; 1].
(** mat4.cpp:175-204 *)
Definition Mat4_AffineProjectionFrustum (fovy aspect zmin zmax : R) : list R :=
  let yratio := 1 / tan (fovy / 2) in
  let xratio := yratio / aspect in
  [xratio; 0; 0; 0;
   0; yratio; 0; 0;
   0; 0; - (zmin + zmax) / (zmax - zmin); (zmin * zmax * 2) / (zmax - zmin);
   0; 0; -1; 0].
(** mat4.cpp:105-113 *)
Definition Normalize3D (v : vec3) : vec3 :=
  let len := sqrt (vx v * vx v + vy v * vy v + vz v * vz v) in
  let leninv := 1 / len in
  V3 (vx v * leninv) (vy v * leninv) (vz v * leninv).
(** mat4.cpp:115-121 *)
Definition Cross3D (u v : vec3) : vec3 := V3 (vy u * vz v - vy v * vz u) (vz u * vx v - vz v * vx u) (vx u * vy v - vx v * vy u).
(** mat4.cpp:224-260 *)
Definition Mat4_AffineLookAt (eye cnt upv : vec3) : list R :=
  let forward := Normalize3D (V3 (vx cnt - vx eye) (vy cnt - vy eye) (vz cnt - vz eye)) in
  let side := Normalize3D (Cross3D forward upv) in
  let up := Cross3D side forward in
  let Mr := [vx side; vy side; vz side; 0; vx up; vy up; vz up; 0; - vx forward; - vy forward; - vz forward; 0; 0; 0; 0; 1] in
  MatMat4 Mr (Mat4_AffineTranslation (- vx eye) (- vy eye) (- vz eye)).
(** mat4.h:334-348: pixel (iw, ih) of a picture of nwidth x nheight pixels; the result is the source and the direction of the ray *)
Definition RayFromInverseMvpMatrix (minv : list R) (iw ih : Z) (nwidth nheight : nat) : vec3 * vec3 :=
  let px := -1 + 2 / INR nwidth * (IZR iw + 1 / 2) in
  let py := -1 + 2 / INR nheight * (IZR ih + 1 / 2) in
  let qs := Vec3_Mat4Vec3_Homography minv (V3 px py 1) in
  let qe := Vec3_Mat4Vec3_Homography minv (V3 px py (-1)) in
  let d := V3 (vx qe - vx qs) (vy qe - vy qs) (vz qe - vz qs) in
  let l := sqrt (vx d * vx d + vy d * vy d + vz d * vz d) in
  (qs, V3 (vx d / l) (vy d / l) (vz d / l)).
