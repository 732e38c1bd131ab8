(** Model of the functions that change or build meshes and point arrays in /repo/include/delfem2/mshmisc.cpp, msh_affine_transformation.cpp and
    msh_normal.cpp.  Numbers are reals; reads and writes outside of an array, failed assertions and quotients by zero are None. *)
From Coq Require Import List Arith Bool ZArith Reals.
Import ListNotations.
From Verif Require Import Imp PrModel PolyModel QuatModel ProxModel IsecModel MeasModel.
Open Scope R_scope.

(** The three assignments to the coordinates of point i, and the three additions *)
Definition put3 (a : list R) (i : nat) (p : vec3) : option (list R) :=
  a <- vset a (i * 3 + 0) (vx p) ;; a <- vset a (i * 3 + 1) (vy p) ;; vset a (i * 3 + 2) (vz p).
Definition inc3 (a : list R) (i : nat) (p : vec3) : option (list R) :=
  a <- vmod a (i * 3 + 0) (fun x => x + vx p) ;; a <- vmod a (i * 3 + 1) (fun x => x + vy p) ;; vmod a (i * 3 + 2) (fun x => x + vz p).

(** mshmisc.cpp:223-255; [old1], [oldE] are the contents of the outputs before the call; the map is an array of int *)
Definition RemoveUnreferencedPoints_MeshElem (old1 : list R) (oldE : list nat) (ndim : nat) (aXYZ0 : list R) (aElem0 : list nat) : option (list R * list nat * list Z) :=
  assertb (negb (ndim =? 0)%nat) ;;;
  let np0 := (length aXYZ0 / ndim)%nat in
  aMap01 <- foldM (fun ip m => vset m ip (-1)%Z) aElem0 (repeat (-2)%Z np0) ;;
  '(aMap01, npj) <- forn 0 np0 (fun ip st =>
    let '(m, npj) := st in
    v <- vget m ip ;;
    if Z.eqb v (-2) then Some st else
    m <- vset m ip (Z.of_nat npj) ;;
    Some (m, S npj)) (aMap01, 0%nat) ;;
  aXYZ1 <- forn 0 np0 (fun ip x1 =>
    jp <- vget aMap01 ip ;;
    if Z.eqb jp (-2) then Some x1 else
    forn 0 ndim (fun idim x1 =>
      v <- vget aXYZ0 (ip * ndim + idim) ;;
      vset x1 (Z.to_nat jp * ndim + idim) v) x1) (vresize 0 old1 (npj * ndim)) ;;
  aElem1 <- forn 0 (length aElem0) (fun it e1 =>
    ip <- vget aElem0 it ;;
    jp <- vget aMap01 ip ;;
    vset e1 it (Z.to_nat jp)) (vresize 0%nat oldE (length aElem0)) ;;
  Some (aXYZ1, aElem1, aMap01).

(** mshmisc.cpp:112-114 *)
Definition Distance2D (p0 p1 : pt) : R := sqrt ((fst p1 - fst p0) * (fst p1 - fst p0) + (snd p1 - snd p0) * (snd p1 - snd p0)).
Definition xy (aXY : list R) (i : nat) : option pt := x <- vget aXY (i * 2 + 0) ;; y <- vget aXY (i * 2 + 1) ;; Some (x, y).
(** mshmisc.cpp:259-288: max_aspect and min_area; a triangle with area zero gives inf or NaN in the code, None here *)
Definition Quality_MeshTri2D (aXY : list R) (aTri : list nat) (nTri : nat) : option (R * R) :=
  forn 0 nTri (fun itri st =>
    let '(max_aspect, min_area) := st in
    i0 <- vget aTri (itri * 3 + 0) ;; i1 <- vget aTri (itri * 3 + 1) ;; i2 <- vget aTri (itri * 3 + 2) ;;
    p0 <- xy aXY i0 ;; p1 <- xy aXY i1 ;; p2 <- xy aXY i2 ;;
    let area := Area_Tri2 p0 p1 p2 in
    let len_ave := (Distance2D p0 p1 + Distance2D p1 p2 + Distance2D p2 p0) / 3 in
    aspect <- ndiv (len_ave * len_ave) area ;;
    if (itri =? 0)%nat then Some (aspect, area) else
    Some (if ltR max_aspect aspect then aspect else max_aspect, if ltR area min_area then area else min_area)) (0, 0).

(** mshmisc.cpp:300-322: the corners, the one with the largest index first *)
Definition rotated (i0 i1 i2 : nat) : nat * nat * nat :=
  let r := (0, 0, 0)%nat in
  let r := if (i1 <? i0)%nat && (i2 <? i0)%nat then (i0, i1, i2) else r in
  let r := if (i0 <? i1)%nat && (i2 <? i1)%nat then (i1, i2, i0) else r in
  let r := if (i0 <? i2)%nat && (i1 <? i2)%nat then (i2, i0, i1) else r in
  r.
Fixpoint puts (t : list nat) (k : nat) (vs : list nat) : option (list nat) := match vs with [] => Some t | v :: r => t <- vset t k v ;; puts t (S k) r end.
(** mshmisc.cpp:292-351; the twelve assignments of a prism are written to consecutive places, in the order of the places *)
Definition SetTopology_ExtrudeTri2Tet (aTet : list nat) (nXY : nat) (aTri : list nat) (nTri nlayer : nat) : option (list nat) :=
  forn 0 nlayer (fun il t =>
    forn 0 nTri (fun itri t =>
      i0 <- vget aTri (itri * 3 + 0) ;; i1 <- vget aTri (itri * 3 + 1) ;; i2 <- vget aTri (itri * 3 + 2) ;;
      assertb (negb (i0 =? i1)%nat && negb (i1 =? i2)%nat) ;;;
      let '(ip0, ip1, ip2) := rotated i0 i1 i2 in
      let q0 := ((il + 0) * nXY + ip0)%nat in
      let q1 := ((il + 1) * nXY + ip0)%nat in
      let q2 := ((il + 0) * nXY + ip1)%nat in
      let q3 := ((il + 1) * nXY + ip1)%nat in
      let q4 := ((il + 0) * nXY + ip2)%nat in
      let q5 := ((il + 1) * nXY + ip2)%nat in
      puts t (il * nTri * 12 + itri * 12) ([q0; q2; q4; q1] ++
        if (ip2 <? ip1)%nat then [q1; q3; q2; q4] ++ [q1; q3; q4; q5] else [q1; q2; q5; q3] ++ [q1; q2; q4; q5])) t) aTet.
(** mshmisc.cpp:353-372; [old], [oldT] are the contents of the outputs before the call *)
Definition ExtrudeTri2Tet (nlayer : nat) (h : R) (old : list R) (oldT : list nat) (aXY : list R) (aTri : list nat) : option (list R * list nat) :=
  let nXY := (length aXY / 2)%nat in
  let nTri := (length aTri / 3)%nat in
  aXYZ <- forn 0 (nlayer + 1) (fun il a =>
    forn 0 nXY (fun ixy a =>
      x <- vget aXY (ixy * 2 + 0) ;;
      y <- vget aXY (ixy * 2 + 1) ;;
      a <- vset a (il * nXY * 3 + ixy * 3 + 0) x ;;
      a <- vset a (il * nXY * 3 + ixy * 3 + 1) y ;;
      vset a (il * nXY * 3 + ixy * 3 + 2) (INR il * h)) a) (vresize 0 old (nXY * (nlayer + 1) * 3)) ;;
  aTet <- SetTopology_ExtrudeTri2Tet (vresize 0%nat oldT (nTri * nlayer * 3 * 4)) nXY aTri nTri nlayer ;;
  Some (aXYZ, aTet).

(** mshmisc.cpp:376-408; indices that are negative in the code are outside of the model *)
Definition LaplacianSmoothing (vtx_xyz : list R) (tri_vtx elsup_ind elsup : list nat) : option (list R) :=
  forn 0 (length vtx_xyz / 3) (fun ip a =>
    lo <- vget elsup_ind ip ;;
    hi <- vget elsup_ind (ip + 1) ;;
    '(pcnt, sum_area) <- forn lo hi (fun ielsup st =>
      let '(pcnt, sum_area) := st in
      assertb (ielsup <? length elsup)%nat ;;;
      iel <- vget elsup ielsup ;;
      assertb (iel <? length tri_vtx / 3)%nat ;;;
      '(p0, p1, p2) <- tri3 tri_vtx a iel ;;
      let area := TriArea3D p0 p1 p2 in
      Some (V3 (vx pcnt + area * (vx p0 + vx p1 + vx p2) / 3) (vy pcnt + area * (vy p0 + vy p1 + vy p2) / 3) (vz pcnt + area * (vz p0 + vz p1 + vz p2) / 3), sum_area + area)) (V3 0 0 0, 0) ;;
    pcnt <- divide pcnt sum_area ;;
    put3 a ip pcnt) vtx_xyz.

(** mshmisc.cpp:642-652: points and triangles *)
Definition AddMesh (aXYZ : list R) (aTri : list nat) (aXYZ0 : list R) (aTri0 : list nat) : list R * list nat :=
  let np0 := (length aXYZ / 3)%nat in
  (aXYZ ++ aXYZ0, aTri ++ map (fun i => i + np0)%nat aTri0).

(** msh_affine_transformation.cpp:158-163, 174-181 *)
Definition Scale_PointsX (vtx_xyz : list R) (scale : R) : option (list R) :=
  forn 0 (length vtx_xyz) (fun i a => vmod a i (fun x => x * scale)) vtx_xyz.
(** msh_affine_transformation.cpp:192-203 *)
Definition Translate_Points (vtx_coords : list R) (num_vtx ndim : nat) (translation : list R) : option (list R) :=
  forn 0 num_vtx (fun ip a =>
    forn 0 ndim (fun idim a =>
      t <- vget translation idim ;;
      vmod a (ip * ndim + idim) (fun x => x + t)) a) vtx_coords.
(** msh_affine_transformation.cpp:229-236 *)
Definition Translate_Points3 (aXYZ : list R) (tx ty tz : R) : option (list R) := Translate_Points aXYZ (length aXYZ / 3) 3 [tx; ty; tz].
(** msh_affine_transformation.cpp:131-146, 80-87: matrix of the three angles times a vector *)
Definition Mat3_Bryant (rx ry rz : R) (p : vec3) : vec3 :=
  V3 (cos rz * cos ry * vx p + (cos rz * sin ry * sin rx - sin rz * cos rx) * vy p + (cos rz * sin ry * cos rx + sin rz * sin rx) * vz p)
     (sin rz * cos ry * vx p + (sin rz * sin ry * sin rx + cos rz * cos rx) * vy p + (sin rz * sin ry * cos rx - cos rz * sin rx) * vz p)
     (- sin ry * vx p + cos ry * sin rx * vy p + cos ry * cos rx * vz p).
(** msh_affine_transformation.cpp:247-261 *)
Definition Rotate_Points3 (aXYZ : list R) (radx rady radz : R) : option (list R) :=
  forn 0 (length aXYZ / 3) (fun ixyz a =>
    p <- xyz a ixyz ;;
    put3 a ixyz (Mat3_Bryant radx rady radz p)) aXYZ.
(** msh_affine_transformation.cpp:272-286 *)
Definition Normalize_Points3 (vtx_xyz : list R) (length_longest_edge_boundingbox : R) : option (list R) :=
  '(c, w) <- CenterWidth_Points3 vtx_xyz ;;
  a <- Translate_Points3 vtx_xyz (- vx c) (- vy c) (- vz c) ;;
  let wmax := largest (vx w) (vy w) (vz w) in
  s <- ndiv length_longest_edge_boundingbox wmax ;;
  Scale_PointsX a s.
(** msh_affine_transformation.cpp:25-28, msh_normal.cpp:24-27, and the products with 1/length *)
Definition normalized (p : vec3) : option vec3 :=
  linv <- ndiv 1 (norm3 p) ;; Some (V3 (vx p * linv) (vy p * linv) (vz p * linv)).
(** msh_affine_transformation.cpp:296-321 for vectors in space *)
Definition NormalizeVector_Points (aVec : list R) (np : nat) : option (list R) :=
  forn 0 np (fun ip a =>
    p <- xyz a ip ;;
    q <- normalized p ;;
    put3 a ip q) aVec.
(** msh_affine_transformation.cpp:365-385 *)
Definition TangentVector_Points3 (aOdir aNorm : list R) : option (list R) :=
  assertb (length aOdir =? length aNorm)%nat ;;;
  let np := (length aNorm / 3)%nat in
  forn 0 np (fun ip a =>
    n <- xyz aNorm ip ;;
    o0 <- xyz a ip ;;
    let on := dot3 o0 n in
    let o1 := V3 (vx o0 - on * vx n) (vy o0 - on * vy n) (vz o0 - on * vz n) in
    let leninv := norm3 o1 in
    put3 a ip (V3 (vx o1 * leninv) (vy o1 * leninv) (vz o1 * leninv))) (vresize 0 aOdir (np * 3)).

(** msh_normal.cpp:29-45: the unit normal *)
Definition unit_normal_tri (v1 v2 v3 : vec3) : option vec3 :=
  let n := V3 ((vy v2 - vy v1) * (vz v3 - vz v1) - (vy v3 - vy v1) * (vz v2 - vz v1))
              ((vz v2 - vz v1) * (vx v3 - vx v1) - (vz v3 - vz v1) * (vx v2 - vx v1))
              ((vx v2 - vx v1) * (vy v3 - vy v1) - (vx v3 - vx v1) * (vy v2 - vy v1)) in
  let a := sqrt (vx n * vx n + vy n * vy n + vz n * vz n) / 2 in
  invlen <- ndiv 1 (a * 2) ;;
  Some (V3 (vx n * invlen) (vy n * invlen) (vz n * invlen)).
(** msh_normal.cpp:62-98 *)
Definition Normal_MeshTri3D (vtx_xyz : list R) (num_vtx : nat) (tri_vtx : list nat) (num_tri : nat) : option (list R) :=
  a <- forn 0 num_tri (fun itri a =>
    i0 <- vget tri_vtx (itri * 3 + 0) ;; assertb (i0 <? num_vtx)%nat ;;;
    i1 <- vget tri_vtx (itri * 3 + 1) ;; assertb (i1 <? num_vtx)%nat ;;;
    i2 <- vget tri_vtx (itri * 3 + 2) ;; assertb (i2 <? num_vtx)%nat ;;;
    p0 <- xyz vtx_xyz i0 ;; p1 <- xyz vtx_xyz i1 ;; p2 <- xyz vtx_xyz i2 ;;
    un <- unit_normal_tri p0 p1 p2 ;;
    a <- inc3 a i0 un ;; a <- inc3 a i1 un ;; inc3 a i2 un) (repeat 0 (num_vtx * 3)) ;;
  NormalizeVector_Points a num_vtx.
(** msh_normal.cpp:130-174 *)
Definition Normal_MeshQuad3 (aXYZ : list R) (aQuad : list nat) : option (list R) :=
  let nXYZ := (length aXYZ / 3)%nat in
  let nQuad := (length aQuad / 4)%nat in
  a <- forn 0 nQuad (fun iquad a =>
    i0 <- vget aQuad (iquad * 4 + 0) ;; i1 <- vget aQuad (iquad * 4 + 1) ;; i2 <- vget aQuad (iquad * 4 + 2) ;; i3 <- vget aQuad (iquad * 4 + 3) ;;
    p0 <- xyz aXYZ i0 ;; p1 <- xyz aXYZ i1 ;; p2 <- xyz aXYZ i2 ;; p3 <- xyz aXYZ i3 ;;
    un0 <- unit_normal_tri p3 p0 p1 ;;
    un1 <- unit_normal_tri p0 p1 p2 ;;
    un2 <- unit_normal_tri p1 p2 p3 ;;
    un3 <- unit_normal_tri p2 p3 p0 ;;
    a <- inc3 a i0 un0 ;; a <- inc3 a i1 un1 ;; a <- inc3 a i2 un2 ;; inc3 a i3 un3) (repeat 0 (nXYZ * 3)) ;;
  NormalizeVector_Points a nXYZ.

(** mshmisc.cpp:674-701; the quotients by a length or area zero give inf or NaN in the code, None here *)
Definition Distortion_MappingTriangleFrom2To3Dim (thresA thresE : R) (it0 : nat) (aTri : list nat) (aXYZ aTexP : list R) : option bool :=
  i0 <- vget aTri (it0 * 3 + 0) ;; i1 <- vget aTri (it0 * 3 + 1) ;; i2 <- vget aTri (it0 * 3 + 2) ;;
  t0 <- xy aTexP i0 ;; t1 <- xy aTexP i1 ;; t2 <- xy aTexP i2 ;;
  p0 <- xyz aXYZ i0 ;; p1 <- xyz aXYZ i1 ;; p2 <- xyz aXYZ i2 ;;
  let score := fun a b => x <- ndiv a b ;; y <- ndiv b a ;; Some (1/2 * (x + y)) in
  scoreArea <- score (Area_Tri2 t0 t1 t2) (TriArea3D p0 p1 p2) ;;
  if ltR scoreArea 0 || ltR thresA scoreArea then Some true else
  s12 <- score (Distance2D t1 t2) (Distance3 p1 p2) ;;
  if ltR thresE s12 then Some true else
  s20 <- score (Distance2D t2 t0) (Distance3 p2 p0) ;;
  if ltR thresE s20 then Some true else
  s01 <- score (Distance2D t0 t1) (Distance3 p0 p1) ;;
  if ltR thresE s01 then Some true else
  Some false.
