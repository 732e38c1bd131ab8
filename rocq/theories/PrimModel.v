(** Model of /repo/include/delfem2/msh_primitive.cpp: generated meshes.  Real numbers stand for float and double,
    natural numbers for unsigned and int (no overflow). *)
From Coq Require Import List Arith Bool Reals.
Import ListNotations.
From Verif Require Import Imp.

(** [const double pi = 3.1415926535] of msh_primitive.cpp:48, 101, 165, 251 *)
Definition pi10 : R := 31415926535 / 10000000000.

(** msh_primitive.cpp:14-38, MeshQuad2D_Grid; the arrays may hold anything before *)
Definition MeshQuad2D_Grid (aXYZ : list R) (aQuad : list nat) (nx ny : nat) : option (list R * list nat) :=
  let np := (nx + 1) * (ny + 1) in
  let aXYZ := vresize 0%R aXYZ (np * 2) in
  aXYZ <- forn 0 (ny + 1) (fun iy a => forn 0 (nx + 1) (fun ix a =>
    let ip := iy * (nx + 1) + ix in
    a <- vset a (ip * 2 + 0) (INR ix) ;;
    vset a (ip * 2 + 1) (INR iy)) a) aXYZ ;;
  let aQuad := vresize 0 aQuad (nx * ny * 4) in
  aQuad <- forn 0 ny (fun iy a => forn 0 nx (fun ix a =>
    let iq := iy * nx + ix in
    a <- vset a (iq * 4 + 0) ((iy + 0) * (nx + 1) + (ix + 0)) ;;
    a <- vset a (iq * 4 + 1) ((iy + 0) * (nx + 1) + (ix + 1)) ;;
    a <- vset a (iq * 4 + 2) ((iy + 1) * (nx + 1) + (ix + 1)) ;;
    vset a (iq * 4 + 3) ((iy + 1) * (nx + 1) + (ix + 0))) a) aQuad ;;
  Some (aXYZ, aQuad).

(** msh_primitive.cpp:40-87, MeshTri3D_Disk; [nr - 1] of a non-positive [nr] leaves the loop out, as in natural numbers (division by zero for nr = 0 or nth = 0 gives an unused value) *)
Definition MeshTri3D_Disk (r : R) (nr nth : nat) : option (list R * list nat) :=
  let dr := (r / INR nr)%R in
  let dth := (2 * pi10 / INR nth)%R in
  aXYZ <- forn 1 (nr + 1) (fun ir a =>
    let ri := (dr * INR ir)%R in
    forn 0 nth (fun ith a => Some (a ++ [(ri * cos (INR ith * dth))%R; 0%R; (ri * sin (INR ith * dth))%R])) a) [0%R; 0%R; 0%R] ;;
  aTri <- forn 0 nth (fun ith a => Some (a ++ [0; (ith + 1) mod nth + 1; (ith + 0) mod nth + 1])) [] ;;
  aTri <- forn 0 (nr - 1) (fun ir a => forn 0 nth (fun ith a =>
    let i1 := (ir + 0) * nth + 1 + (ith + 0) mod nth in
    let i2 := (ir + 0) * nth + 1 + (ith + 1) mod nth in
    let i3 := (ir + 1) * nth + 1 + (ith + 1) mod nth in
    let i4 := (ir + 1) * nth + 1 + (ith + 0) mod nth in
    Some (a ++ [i3; i1; i2; i4; i1; i3])) a) aTri ;;
  Some (aXYZ, aTri).

(** msh_primitive.cpp:92-134, MeshTri3D_CylinderOpen *)
Definition MeshTri3D_CylinderOpen (r l : R) (nr nl : nat) : option (list R * list nat) :=
  let dl := (l / INR nl)%R in
  let dr := (2 * pi10 / INR nr)%R in
  aXYZ <- forn 0 (nl + 1) (fun il a =>
    let y0 := (- / 2 * l + INR il * dl)%R in
    forn 0 nr (fun ir a => Some (a ++ [(r * cos (dr * INR ir))%R; y0; (r * sin (dr * INR ir))%R])) a) [] ;;
  aTri <- forn 0 nl (fun il a => forn 0 nr (fun ir a =>
    let i1 := (il + 0) * nr + (ir + 0) mod nr in
    let i2 := (il + 0) * nr + (ir + 1) mod nr in
    let i3 := (il + 1) * nr + (ir + 1) mod nr in
    let i4 := (il + 1) * nr + (ir + 0) mod nr in
    Some (a ++ [i3; i2; i1; i4; i3; i1])) a) [] ;;
  Some (aXYZ, aTri).

(** msh_primitive.cpp:155-225, MeshTri3D_CylinderClosed *)
Definition MeshTri3D_CylinderClosed (r l : R) (nr nl : nat) : option (list R * list nat) :=
  if (nl <? 1) || (nr <=? 2) then Some ([], []) else
  let dl := (l / INR nl)%R in
  let dr := (2 * pi10 / INR nr)%R in
  aXYZ <- forn 0 (nl + 1) (fun il a =>
    let y0 := (- l / 2 + dl * INR il)%R in
    forn 0 nr (fun ilo a => Some (a ++ [(r * cos (dr * INR ilo))%R; y0; (r * sin (dr * INR ilo))%R])) a) [0%R; (- l / 2)%R; 0%R] ;;
  let aXYZ := aXYZ ++ [0%R; (l / 2)%R; 0%R] in
  let nla := nl + 2 in
  aTri <- forn 0 nr (fun ilo a => Some (a ++ [0; (ilo + 0) mod nr + 1; (ilo + 1) mod nr + 1])) [] ;;
  aTri <- forn 0 (nla - 2) (fun ila a => forn 0 nr (fun ilo a =>
    let i1 := (ila + 0) * nr + 1 + (ilo + 0) mod nr in
    let i2 := (ila + 0) * nr + 1 + (ilo + 1) mod nr in
    let i3 := (ila + 1) * nr + 1 + (ilo + 1) mod nr in
    let i4 := (ila + 1) * nr + 1 + (ilo + 0) mod nr in
    Some (a ++ [i3; i2; i1; i4; i3; i1])) a) aTri ;;
  aTri <- forn 0 nr (fun ilo a => Some (a ++ [nr * (nla - 1) + 1; (nla - 2) * nr + 1 + (ilo + 1) mod nr; (nla - 2) * nr + 1 + (ilo + 0) mod nr])) aTri ;;
  Some (aXYZ, aTri).

(** msh_primitive.cpp:242-294, MeshTri3D_Sphere *)
Definition MeshTri3D_Sphere (radius : R) (n_longitude n_latitude : nat) : option (list R * list nat) :=
  if (n_longitude <=? 1) || (n_latitude <=? 2) then Some ([], []) else
  let dl := (pi10 / INR n_longitude)%R in
  let dr := (2 * pi10 / INR n_latitude)%R in
  vtx_xyz <- forn 0 (n_longitude + 1) (fun ila a =>
    let y0 := cos (dl * INR ila) in
    let r0 := sin (dl * INR ila) in
    forb 0 n_latitude (fun ilo a =>
      let x0 := (r0 * sin (dr * INR ilo))%R in
      let z0 := (r0 * cos (dr * INR ilo))%R in
      Some (a ++ [(radius * x0)%R; (radius * y0)%R; (radius * z0)%R], (ila =? 0) || (ila =? n_longitude))) a) [] ;;
  tri_vtx <- forn 0 n_latitude (fun ilo a => Some (a ++ [0; (ilo + 0) mod n_latitude + 1; (ilo + 1) mod n_latitude + 1])) [] ;;
  tri_vtx <- forn 0 (n_longitude - 2) (fun ila a => forn 0 n_latitude (fun ilo a =>
    let i1 := (ila + 0) * n_latitude + 1 + (ilo + 0) mod n_latitude in
    let i2 := (ila + 0) * n_latitude + 1 + (ilo + 1) mod n_latitude in
    let i3 := (ila + 1) * n_latitude + 1 + (ilo + 1) mod n_latitude in
    let i4 := (ila + 1) * n_latitude + 1 + (ilo + 0) mod n_latitude in
    Some (a ++ [i3; i2; i1; i4; i3; i1])) a) tri_vtx ;;
  tri_vtx <- forn 0 n_latitude (fun ilo a => Some (a ++ [n_latitude * (n_longitude - 1) + 1; (n_longitude - 2) * n_latitude + 1 + (ilo + 1) mod n_latitude; (n_longitude - 2) * n_latitude + 1 + (ilo + 0) mod n_latitude])) tri_vtx ;;
  Some (vtx_xyz, tri_vtx).

(** msh_primitive.cpp:381-400 and 416-435, the corners of a square on the bottom ([first] = 0) or the top ring.  [base] is the number of the first inner vertex, [first] the first vertex of the ring.  iy - 1 and ix - 1 wrap around at 0; what they are used for is then replaced *)
Definition cap_corners (n base first ix iy : nat) : nat * nat * nat * nat :=
  let i0 := base + (iy - 1) * (n - 1) + (ix - 1) in
  let i1 := base + (iy - 1) * (n - 1) + (ix + 0) in
  let i2 := base + (iy + 0) * (n - 1) + (ix + 0) in
  let i3 := base + (iy + 0) * (n - 1) + (ix - 1) in
  let '(i0, i3) := if ix =? 0 then ((if iy =? 0 then first else first + 4 * n - iy), first + 4 * n - iy - 1) else (i0, i3) in
  let '(i1, i2) := if ix =? n - 1 then (first + n + iy, first + n + iy + 1) else (i1, i2) in
  let '(i0, i1) := if iy =? 0 then (first + ix, first + ix + 1) else (i0, i1) in
  let '(i2, i3) := if iy =? n - 1 then (first + 3 * n - ix - 1, first + 3 * n - ix + 0) else (i2, i3) in
  (i0, i1, i2, i3).

(** msh_primitive.cpp:312-445, MeshTri3D_Cube *)
Definition MeshTri3D_Cube (n : nat) : option (list R * list nat) :=
  if n <? 1 then Some ([], []) else
  let r := (1 / INR n)%R in
  let half := (/ 2)%R in
  aXYZ <- forn 0 (n + 1) (fun iz a =>
    a <- forn 0 n (fun ix a => Some (a ++ [(- half + r * INR ix)%R; (- half)%R; (- half + r * INR iz)%R])) a ;;
    a <- forn 0 n (fun iy a => Some (a ++ [half; (- half + r * INR iy)%R; (- half + r * INR iz)%R])) a ;;
    a <- ford n 0 (fun ix a => Some (a ++ [(- half + r * INR ix)%R; half; (- half + r * INR iz)%R])) a ;;
    ford n 0 (fun iy a => Some (a ++ [(- half)%R; (- half + r * INR iy)%R; (- half + r * INR iz)%R])) a) [] ;;
  aXYZ <- forn 1 n (fun iy a => forn 1 n (fun ix a => Some (a ++ [(- half + r * INR ix)%R; (- half + r * INR iy)%R; (- half)%R])) a) aXYZ ;;
  aXYZ <- forn 1 n (fun iy a => forn 1 n (fun ix a => Some (a ++ [(- half + r * INR ix)%R; (- half + r * INR iy)%R; half])) a) aXYZ ;;
  aTri <- forn 0 n (fun iz a => forn 0 (4 * n) (fun ixy a =>
    let i0 := ixy + 4 * n * iz in
    let i1 := (ixy + 1) mod (4 * n) + 4 * n * iz in
    let i2 := (ixy + 1) mod (4 * n) + 4 * n * (iz + 1) in
    let i3 := ixy + 4 * n * (iz + 1) in
    Some (a ++ [i0; i1; i2; i2; i3; i0])) a) [] ;;
  aTri <- forn 0 n (fun ix a => forn 0 n (fun iy a =>
    let '(i0, i1, i2, i3) := cap_corners n (4 * n * (n + 1)) 0 ix iy in
    Some (a ++ [i1; i0; i2; i3; i2; i0])) a) aTri ;;
  let nps := 4 * n * (n + 1) in
  let nps0 := 4 * n * n in
  aTri <- forn 0 n (fun ix a => forn 0 n (fun iy a =>
    let '(i0, i1, i2, i3) := cap_corners n (nps + (n - 1) * (n - 1)) nps0 ix iy in
    Some (a ++ [i0; i1; i2; i2; i3; i0])) a) aTri ;;
  Some (aXYZ, aTri).

(** msh_primitive.cpp:513-552, MeshTri3D_Icosahedron *)
Definition MeshTri3D_Icosahedron : list R * list nat :=
  let p := ((1 + sqrt 5) * / 2)%R in
  (([0; -1; - p;  0; -1; p;  0; 1; - p;  0; 1; p;  - p; 0; -1;  p; 0; -1;  - p; 0; 1;  p; 0; 1;  -1; - p; 0;  -1; p; 0;  1; - p; 0;  1; p; 0])%R,
   [7; 11; 3;  11; 9; 3;  9; 6; 3;  6; 1; 3;  1; 7; 3;  2; 5; 0;  4; 2; 0;  8; 4; 0;  10; 8; 0;  5; 10; 0;
    11; 7; 5;  9; 11; 2;  6; 9; 4;  1; 6; 8;  7; 1; 10;  5; 2; 11;  2; 4; 9;  4; 8; 6;  8; 10; 1;  10; 5; 7]).

(** aXYZ[ip*3+0] = x; aXYZ[ip*3+1] = y; aXYZ[ip*3+2] = z *)
Definition set3 (a : list R) (ip : nat) (x y z : R) : option (list R) :=
  a <- vset a (ip * 3 + 0) x ;;
  a <- vset a (ip * 3 + 1) y ;;
  vset a (ip * 3 + 2) z.

(** msh_primitive.cpp:557-610, MeshTri3_Capsule.  M_PI is PI.  None: 2 * nr + nl - 2 or nl - 1 wraps around (billions of rings), or the assertion fails *)
Definition MeshTri3_Capsule (r l : R) (nc nr nl : nat) : option (list R * list nat) :=
  assertb (2 <=? 2 * nr + nl) ;;;
  '(aXYZ, aTri) <- MeshTri3D_CylinderClosed 1 1 nc (2 * nr + nl - 2) ;;
  assertb (length aXYZ / 3 =? (2 * nr + nl - 1) * nc + 2) ;;;
  aXYZ <- set3 aXYZ 0 0%R (- l * / 2 - r)%R 0%R ;;
  aXYZ <- forn 0 nr (fun ir a =>
    let t0 := (PI * / 2 * INR (nr - 1 - ir) / INR nr)%R in
    let y0 := (- l * / 2 - r * sin t0)%R in
    let c0 := (r * cos t0)%R in
    forn 0 nc (fun ic a => set3 a (1 + ir * nc + ic) (c0 * cos (2 * PI * INR ic / INR nc))%R y0 (c0 * sin (2 * PI * INR ic / INR nc))%R) a) aXYZ ;;
  assertb (1 <=? nl) ;;;
  aXYZ <- forn 0 (nl - 1) (fun il a =>
    let y0 := (- l * / 2 + INR (il + 1) * l / INR nl)%R in
    forn 0 nc (fun ic a => set3 a (1 + (il + nr) * nc + ic) (r * cos (2 * PI * INR ic / INR nc))%R y0 (r * sin (2 * PI * INR ic / INR nc))%R) a) aXYZ ;;
  aXYZ <- forn 0 nr (fun ir a =>
    let t0 := (PI * / 2 * INR ir / INR nr)%R in
    let y0 := (l * / 2 + r * sin t0)%R in
    let c0 := (r * cos t0)%R in
    forn 0 nc (fun ic a => set3 a (1 + (ir + nl + nr - 1) * nc + ic) (c0 * cos (2 * PI * INR ic / INR nc))%R y0 (c0 * sin (2 * PI * INR ic / INR nc))%R) a) aXYZ ;;
  let np := length aXYZ / 3 in
  aXYZ <- set3 aXYZ (np - 1) 0%R (l * / 2 + r)%R 0%R ;;
  Some (aXYZ, aTri).

(** msh_primitive.cpp:627-659, MeshTri3_Torus; the arrays may hold anything before.  M_PI is PI *)
Definition MeshTri3_Torus (aXYZ : list R) (aTri : list nat) (radius_ radius_tube_ : R) (nlg nlt : nat) : option (list R * list nat) :=
  let rlg := (PI * 2 / INR nlg)%R in
  let rlt := (PI * 2 / INR nlt)%R in
  let aXYZ := vresize 0%R aXYZ (nlg * nlt * 3) in
  aXYZ <- forn 0 nlg (fun ilg a => forn 0 nlt (fun ilt a =>
    set3 a (ilg * nlt + ilt)
      ((radius_ + radius_tube_ * cos (INR ilt * rlt)) * sin (INR ilg * rlg))%R
      ((radius_ + radius_tube_ * cos (INR ilt * rlt)) * cos (INR ilg * rlg))%R
      (radius_tube_ * sin (INR ilt * rlt))%R) a) aXYZ ;;
  let aTri := vresize 0 aTri (nlg * nlt * 2 * 3) in
  aTri <- forn 0 nlg (fun ilg a => forn 0 nlt (fun ilt a =>
    let iug := if ilg =? nlg - 1 then 0 else ilg + 1 in
    let iut := if ilt =? nlt - 1 then 0 else ilt + 1 in
    a <- vset a ((ilg * nlt + ilt) * 6 + 0) (ilg * nlt + ilt) ;;
    a <- vset a ((ilg * nlt + ilt) * 6 + 2) (iug * nlt + ilt) ;;
    a <- vset a ((ilg * nlt + ilt) * 6 + 1) (iug * nlt + iut) ;;
    a <- vset a ((ilg * nlt + ilt) * 6 + 3) (ilg * nlt + ilt) ;;
    a <- vset a ((ilg * nlt + ilt) * 6 + 5) (iug * nlt + iut) ;;
    vset a ((ilg * nlt + ilt) * 6 + 4) (ilg * nlt + iut)) a) aTri ;;
  Some (aXYZ, aTri).

(** msh_primitive.cpp:677-710, MeshHex3_Grid; the arrays may hold anything before *)
Definition MeshHex3_Grid (aXYZ : list R) (aHex : list nat) (nx ny nz : nat) (elen : R) : option (list R * list nat) :=
  let aXYZ := vresize 0%R aXYZ ((nz + 1) * (ny + 1) * (nx + 1) * 3) in
  aXYZ <- forn 0 (nz + 1) (fun iz a => forn 0 (ny + 1) (fun iy a => forn 0 (nx + 1) (fun ix a =>
    set3 a (iz * (ny + 1) * (nx + 1) + iy * (nx + 1) + ix) (INR ix * elen)%R (INR iy * elen)%R (INR iz * elen)%R) a) a) aXYZ ;;
  let aHex := vresize 0 aHex (nx * ny * nz * 8) in
  aHex <- forn 0 nz (fun iz a => forn 0 ny (fun iy a => forn 0 nx (fun ix a =>
    let ih0 := iz * ny * nx + iy * nx + ix in
    a <- vset a (ih0 * 8 + 0) ((iz + 0) * (ny + 1) * (nx + 1) + (iy + 0) * (nx + 1) + (ix + 0)) ;;
    a <- vset a (ih0 * 8 + 1) ((iz + 0) * (ny + 1) * (nx + 1) + (iy + 0) * (nx + 1) + (ix + 1)) ;;
    a <- vset a (ih0 * 8 + 2) ((iz + 0) * (ny + 1) * (nx + 1) + (iy + 1) * (nx + 1) + (ix + 1)) ;;
    a <- vset a (ih0 * 8 + 3) ((iz + 0) * (ny + 1) * (nx + 1) + (iy + 1) * (nx + 1) + (ix + 0)) ;;
    a <- vset a (ih0 * 8 + 4) ((iz + 1) * (ny + 1) * (nx + 1) + (iy + 0) * (nx + 1) + (ix + 0)) ;;
    a <- vset a (ih0 * 8 + 5) ((iz + 1) * (ny + 1) * (nx + 1) + (iy + 0) * (nx + 1) + (ix + 1)) ;;
    a <- vset a (ih0 * 8 + 6) ((iz + 1) * (ny + 1) * (nx + 1) + (iy + 1) * (nx + 1) + (ix + 1)) ;;
    vset a (ih0 * 8 + 7) ((iz + 1) * (ny + 1) * (nx + 1) + (iy + 1) * (nx + 1) + (ix + 0))) a) a) aHex ;;
  Some (aXYZ, aHex).
