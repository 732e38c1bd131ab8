(** Model of the bounding boxes, centres of gravity, areas and masses of /repo/include/delfem2/msh_boundingbox.cpp, msh_center_of_gravity.cpp
    and mshmisc.cpp.  Numbers are reals; reads outside of an array, failed assertions and quotients by zero (NaN) are None. *)
From Coq Require Import List Arith Bool ZArith Reals.
Import ListNotations.
From Verif Require Import Imp PrModel PolyModel QuatModel ProxModel IsecModel.
Open Scope R_scope.

(** msh_boundingbox.cpp:240-258, 181-198: the least and the greatest corner *)
Definition updateMinMaxXYZ (b : vec3 * vec3) (p : vec3) : vec3 * vec3 :=
  let '(mn, mx) := b in
  if ltR (vx mx) (vx mn) then (p, p) else
  (V3 (if ltR (vx mn) (vx p) then vx mn else vx p) (if ltR (vy mn) (vy p) then vy mn else vy p) (if ltR (vz mn) (vz p) then vz mn else vz p),
   V3 (if ltR (vx p) (vx mx) then vx mx else vx p) (if ltR (vy p) (vy mx) then vy mx else vy p) (if ltR (vz p) (vz mx) then vz mx else vz p)).
(** msh_boundingbox.cpp:274-291; [ini] is the content of the two output arrays before the call *)
Definition BoundingBox3_Points3 (ini : vec3 * vec3) (vtx_xyz : list R) (num_vtx : nat) : option (vec3 * vec3) :=
  forn 0 num_vtx (fun ixyz b => p <- xyz vtx_xyz ixyz ;; Some (updateMinMaxXYZ b p)) (V3 1 (vy (fst ini)) (vz (fst ini)), V3 (-1) (vy (snd ini)) (vz (snd ini))).
(** msh_boundingbox.cpp:164-178, 222-236: centre and widths *)
Definition CenterWidth_MinMaxXYZ (b : vec3 * vec3) : vec3 * vec3 :=
  let '(mn, mx) := b in
  (V3 ((vx mn + vx mx) / 2) ((vy mn + vy mx) / 2) ((vz mn + vz mx) / 2), V3 (vx mx - vx mn) (vy mx - vy mn) (vz mx - vz mn)).
(** msh_boundingbox.cpp:303-325 for a pointer that is not null, 340-362, 376-384 *)
Definition CenterWidth_Point3 (vtx_xyz : list R) (num_vtx : nat) : option (vec3 * vec3) :=
  p0 <- xyz vtx_xyz 0 ;;
  b <- forn 0 num_vtx (fun ino b => p <- xyz vtx_xyz ino ;; Some (updateMinMaxXYZ b p)) (p0, p0) ;;
  Some (CenterWidth_MinMaxXYZ b).
(** msh_boundingbox.cpp:340-362, 376-384 *)
Definition CenterWidth_Points3 (vtx_xyz : list R) : option (vec3 * vec3) :=
  let np := (length vtx_xyz / 3)%nat in
  if (np =? 0)%nat then Some (V3 0 0 0, V3 1 1 1) else CenterWidth_Point3 vtx_xyz np.
(** msh_boundingbox.cpp:398-431: along three directions *)
Definition GetCenterWidthLocal (aXYZ : list R) (lex ley lez : vec3) : option (vec3 * vec3) :=
  let nno := (length aXYZ / 3)%nat in
  if (nno =? 0)%nat then Some (V3 0 0 0, V3 1 1 1) else
  let loc := fun p => V3 (dot3 p lex) (dot3 p ley) (dot3 p lez) in
  p0 <- xyz aXYZ 0 ;;
  b <- forn 0 nno (fun ino b => p <- xyz aXYZ ino ;; Some (updateMinMaxXYZ b (loc p))) (loc p0, loc p0) ;;
  Some (CenterWidth_MinMaxXYZ b).
(** msh_boundingbox.cpp:453-463, 491-501: one more point; None before the first *)
Definition add_point (b : option (vec3 * vec3)) (p : vec3) : option (vec3 * vec3) :=
  match b with None => Some (p, p) | Some b => Some (updateMinMaxXYZ b p) end.
(** msh_boundingbox.cpp:465-471, 503-511 *)
Definition finish (b : option (vec3 * vec3)) : vec3 * vec3 :=
  match b with None => (V3 0 0 0, V3 1 1 1) | Some b => CenterWidth_MinMaxXYZ b end.
(** msh_boundingbox.cpp:434-472; nnoel = 0 is a division by zero *)
Definition GetCenterWidthGroup (vtx_xyz : list R) (elm_vtx : list nat) (nnoel : nat) (igroup : Z) (elm_groupidx : list Z) : option (vec3 * vec3) :=
  assertb (negb (nnoel =? 0)%nat) ;;;
  let nelem := (length elm_vtx / nnoel)%nat in
  assertb (length elm_vtx =? nelem * nnoel)%nat ;;;
  assertb (length elm_groupidx =? nelem)%nat ;;;
  b <- forn 0 nelem (fun ielem b =>
    g <- vget elm_groupidx ielem ;;
    if negb (Z.eqb g igroup) then Some b else
    forn 0 nnoel (fun inotri b =>
      ip <- vget elm_vtx (ielem * 3 + inotri) ;;
      p <- xyz vtx_xyz ip ;;
      Some (add_point b p)) b) None ;;
  Some (finish b).
(** msh_boundingbox.cpp:474-525 *)
Definition GetCenterWidthGroup_jag (aXYZ : list R) (aElemInd aElem : list nat) (igroup : Z) (aIndGroup : list Z) : option (vec3 * vec3) :=
  assertb (negb (length aElemInd =? 0)%nat) ;;;
  let nelem := (length aElemInd - 1)%nat in
  assertb (length aIndGroup =? nelem)%nat ;;;
  b <- forn 0 nelem (fun ielem b =>
    g <- vget aIndGroup ielem ;;
    if negb (Z.eqb g igroup) then Some b else
    lo <- vget aElemInd ielem ;;
    hi <- vget aElemInd (ielem + 1) ;;
    forn lo hi (fun iip b =>
      ip <- vget aElem iip ;;
      p <- xyz aXYZ ip ;;
      Some (add_point b p)) b) None ;;
  Some (finish b).
(** msh_boundingbox.cpp:116-121, 527-533 *)
Definition largest (x0 x1 x2 : R) : R :=
  let wmax := x0 in
  let wmax := if ltR wmax x1 then x1 else wmax in
  let wmax := if ltR wmax x2 then x2 else wmax in
  wmax.
(** msh_boundingbox.cpp:527-533 *)
Definition Size_Points3D_LongestAABBEdge (aXYZ : list R) : option R :=
  '(_, w) <- CenterWidth_Points3 aXYZ ;; Some (largest (vx w) (vy w) (vz w)).

(** msh_center_of_gravity.cpp:92-98 *)
Definition Distance3 (p0 p1 : vec3) : R := norm3 (sub3 p1 p0).
(** msh_center_of_gravity.cpp:44-54, mshmisc.cpp:44-54 *)
Definition TriArea3D (v1 v2 v3 : vec3) : R :=
  sqrt (((vy v2 - vy v1) * (vz v3 - vz v1) - (vy v3 - vy v1) * (vz v2 - vz v1)) * ((vy v2 - vy v1) * (vz v3 - vz v1) - (vy v3 - vy v1) * (vz v2 - vz v1))
        + ((vz v2 - vz v1) * (vx v3 - vx v1) - (vz v3 - vz v1) * (vx v2 - vx v1)) * ((vz v2 - vz v1) * (vx v3 - vx v1) - (vz v3 - vz v1) * (vx v2 - vx v1))
        + ((vx v2 - vx v1) * (vy v3 - vy v1) - (vx v3 - vx v1) * (vy v2 - vy v1)) * ((vx v2 - vx v1) * (vy v3 - vy v1) - (vx v3 - vx v1) * (vy v2 - vy v1))) / 2.
(** msh_center_of_gravity.cpp:123-134, mshmisc.cpp:123-134 *)
Definition TetVolume3D (v1 v2 v3 v4 : vec3) : R :=
  ((vx v2 - vx v1) * ((vy v3 - vy v1) * (vz v4 - vz v1) - (vy v4 - vy v1) * (vz v3 - vz v1))
   - (vy v2 - vy v1) * ((vx v3 - vx v1) * (vz v4 - vz v1) - (vx v4 - vx v1) * (vz v3 - vz v1))
   + (vz v2 - vz v1) * ((vx v3 - vx v1) * (vy v4 - vy v1) - (vx v4 - vx v1) * (vy v3 - vy v1))) * (1/6).
(** The quotients at the end of the functions below: None if they are by zero *)
Definition divide (cg : vec3) (tw : R) : option vec3 := if eqR tw 0 then None else Some (V3 (vx cg / tw) (vy cg / tw) (vz cg / tw)).
(** msh_center_of_gravity.cpp:219-233 *)
Definition CG_Point3 (vtx_xyz : list R) : option vec3 :=
  let nXYZ := (length vtx_xyz / 3)%nat in
  cg <- forn 0 nXYZ (fun ixyz cg => p <- xyz vtx_xyz ixyz ;; Some (add3 cg p)) (V3 0 0 0) ;;
  divide cg (INR nXYZ).
(** The corners of a triangle: reads at the start of the loops below *)
Definition tri3 (tri_vtx : list nat) (vtx_xyz : list R) (itri : nat) : option (vec3 * vec3 * vec3) :=
  i0 <- vget tri_vtx (itri * 3 + 0) ;; i1 <- vget tri_vtx (itri * 3 + 1) ;; i2 <- vget tri_vtx (itri * 3 + 2) ;;
  p0 <- xyz vtx_xyz i0 ;; p1 <- xyz vtx_xyz i1 ;; p2 <- xyz vtx_xyz i2 ;; Some (p0, p1, p2).
Definition third_sum (q1 q2 q3 : vec3) (f : R) : vec3 := V3 ((vx q1 + vx q2 + vx q3) * f) ((vy q1 + vy q2 + vy q3) * f) ((vz q1 + vz q2 + vz q3) * f).
(** msh_center_of_gravity.cpp:242-270: tri_centerxyz, as a list of points, and the radius *)
Definition CentsMaxRad_MeshTri3 (vtx_xyz : list R) (tri_vtx : list nat) : option (list vec3 * R) :=
  forn 0 (length tri_vtx / 3) (fun itri st =>
    let '(tri_center, max_rad0) := st in
    '(p0, p1, p2) <- tri3 tri_vtx vtx_xyz itri ;;
    let pc := V3 ((vx p0 + vx p1 + vx p2) / 3) ((vy p0 + vy p1 + vy p2) / 3) ((vz p0 + vz p1 + vz p2) / 3) in
    let l0 := Distance3 pc p0 in
    let l1 := Distance3 pc p1 in
    let l2 := Distance3 pc p2 in
    let max_rad0 := if ltR max_rad0 0 || ltR max_rad0 l0 then l0 else max_rad0 in
    let max_rad0 := if ltR max_rad0 0 || ltR max_rad0 l1 then l1 else max_rad0 in
    let max_rad0 := if ltR max_rad0 0 || ltR max_rad0 l2 then l2 else max_rad0 in
    Some (tri_center ++ [pc], max_rad0)) ([], -1).
(** msh_center_of_gravity.cpp:284-313 *)
Definition CG_MeshTri3_Solid (vtx_xyz : list R) (tri_vtx : list nat) : option vec3 :=
  '(cg, tw) <- forn 0 (length tri_vtx / 3) (fun itri st =>
    let '(cg, tw) := st in
    '(q1, q2, q3) <- tri3 tri_vtx vtx_xyz itri ;;
    let q0 := V3 0 0 0 in
    let v := TetVolume3D q0 q1 q2 q3 in
    Some (V3 (vx cg + (vx q0 + vx q1 + vx q2 + vx q3) * (1/4) * v) (vy cg + (vy q0 + vy q1 + vy q2 + vy q3) * (1/4) * v) (vz cg + (vz q0 + vz q1 + vz q2 + vz q3) * (1/4) * v), tw + v)) (V3 0 0 0, 0) ;;
  divide cg tw.
(** msh_center_of_gravity.cpp:367-397, and 327-353 if every triangle is chosen: the sums cg and tw before the quotient *)
Definition shell_sums (vtx_xyz : list R) (tri_vtx : list nat) (chosen : nat -> option bool) : option (vec3 * R) :=
  forn 0 (length tri_vtx / 3) (fun itri st =>
    let '(cg, tw) := st in
    c <- chosen itri ;;
    if negb c then Some st else
    '(q1, q2, q3) <- tri3 tri_vtx vtx_xyz itri ;;
    let a := TriArea3D q1 q2 q3 in
    Some (V3 (vx cg + (vx q1 + vx q2 + vx q3) * (1/3) * a) (vy cg + (vy q1 + vy q2 + vy q3) * (1/3) * a) (vz cg + (vz q1 + vz q2 + vz q3) * (1/3) * a), tw + a)) (V3 0 0 0, 0).
(** msh_center_of_gravity.cpp:327-353 *)
Definition CG_MeshTri3_Shell (aXYZ : list R) (aTri : list nat) : option vec3 :=
  '(cg, tw) <- shell_sums aXYZ aTri (fun _ => Some true) ;; divide cg tw.
(** msh_center_of_gravity.cpp:367-397 *)
Definition CG_TriMsh3Flg_Shell (aXYZ : list R) (aTri : list nat) (iflg : Z) (aFlg : list Z) : option (vec3 * R) :=
  '(cg, tw) <- shell_sums aXYZ aTri (fun itri => f <- vget aFlg itri ;; Some (Z.eqb f iflg)) ;; cg <- divide cg tw ;; Some (cg, tw).
(** msh_center_of_gravity.cpp:415-433; the literal is 0.333333 *)
Definition CG_Tri (itri : nat) (aXYZ : list R) (aTri : list nat) : option vec3 :=
  assertb (itri <? length aTri / 3)%nat ;;;
  '(q1, q2, q3) <- tri3 aTri aXYZ itri ;;
  Some (third_sum q1 q2 q3 (333333 / 1000000)).
(** msh_center_of_gravity.cpp:437-462: v_tot and cg *)
Definition CG_MeshTet3 (aXYZC : list R) (aTet : list nat) : option (R * vec3) :=
  '(cg, v_tot) <- forn 0 (length aTet / 4) (fun it st =>
    let '(cg, v_tot) := st in
    i0 <- vget aTet (it * 4 + 0) ;; i1 <- vget aTet (it * 4 + 1) ;; i2 <- vget aTet (it * 4 + 2) ;; i3 <- vget aTet (it * 4 + 3) ;;
    p0 <- xyz aXYZC i0 ;; p1 <- xyz aXYZC i1 ;; p2 <- xyz aXYZC i2 ;; p3 <- xyz aXYZC i3 ;;
    let v := TetVolume3D p0 p1 p2 p3 in
    Some (V3 (vx cg + v * (vx p0 + vx p1 + vx p2 + vx p3) * (1/4)) (vy cg + v * (vy p0 + vy p1 + vy p2 + vy p3) * (1/4)) (vz cg + v * (vz p0 + vz p1 + vz p2 + vz p3) * (1/4)), v_tot + v)) (V3 0 0 0, 0) ;;
  cg <- divide cg v_tot ;; Some (v_tot, cg).
(** msh_center_of_gravity.cpp:476-498: v_tot and cg *)
Definition CG_MeshLine3 (vtx_xyz : list R) (line_vtx : list nat) : option (R * vec3) :=
  '(cg, v_tot) <- forn 0 (length line_vtx / 2) (fun il st =>
    let '(cg, v_tot) := st in
    i0 <- vget line_vtx (il * 2 + 0) ;; i1 <- vget line_vtx (il * 2 + 1) ;;
    p0 <- xyz vtx_xyz i0 ;; p1 <- xyz vtx_xyz i1 ;;
    let v := Distance3 p0 p1 in
    Some (V3 (vx cg + v * (vx p0 + vx p1) * (1/2)) (vy cg + v * (vy p0 + vy p1) * (1/2)) (vz cg + v * (vz p0 + vz p1) * (1/2)), v_tot + v)) (V3 0 0 0, 0) ;;
  cg <- divide cg v_tot ;; Some (v_tot, cg).
(** mshmisc.cpp:655-671 *)
Definition Area_MeshTri3 (vtx_xyz : list R) (tri_vtx : list nat) (flag : nat -> bool) : option R :=
  forn 0 (length tri_vtx / 3) (fun it area_sum =>
    if negb (flag it) then Some area_sum else
    '(q1, q2, q3) <- tri3 tri_vtx vtx_xyz it ;;
    Some (area_sum + TriArea3D q1 q2 q3)) 0.
(** mshmisc.cpp:566-593 *)
Definition MassPoint_Tet3D (rho : R) (aXYZ : list R) (nXYZ : nat) (aTet : list nat) (nTet : nat) : option (list R) :=
  forn 0 nTet (fun it m =>
    i0 <- vget aTet (it * 4 + 0) ;; assertb (i0 <? nXYZ)%nat ;;;
    i1 <- vget aTet (it * 4 + 1) ;; assertb (i1 <? nXYZ)%nat ;;;
    i2 <- vget aTet (it * 4 + 2) ;; assertb (i2 <? nXYZ)%nat ;;;
    i3 <- vget aTet (it * 4 + 3) ;; assertb (i3 <? nXYZ)%nat ;;;
    p0 <- xyz aXYZ i0 ;; p1 <- xyz aXYZ i1 ;; p2 <- xyz aXYZ i2 ;; p3 <- xyz aXYZ i3 ;;
    let v0123 := TetVolume3D p0 p1 p2 p3 in
    m <- vmod m i0 (fun x => x + 1/4 * rho * v0123) ;;
    m <- vmod m i1 (fun x => x + 1/4 * rho * v0123) ;;
    m <- vmod m i2 (fun x => x + 1/4 * rho * v0123) ;;
    vmod m i3 (fun x => x + 1/4 * rho * v0123)) (repeat 0 nXYZ).
(** mshmisc.cpp:40-42, 595-618 *)
Definition MassPoint_Tri2D (rho : R) (aXY : list R) (nXY : nat) (aTri : list nat) (nTri : nat) : option (list R) :=
  forn 0 nTri (fun it m =>
    i0 <- vget aTri (it * 3 + 0) ;; i1 <- vget aTri (it * 3 + 1) ;; i2 <- vget aTri (it * 3 + 2) ;;
    assertb (i0 <? nXY)%nat ;;; assertb (i1 <? nXY)%nat ;;; assertb (i2 <? nXY)%nat ;;;
    x0 <- vget aXY (i0 * 2 + 0) ;; y0 <- vget aXY (i0 * 2 + 1) ;; x1 <- vget aXY (i1 * 2 + 0) ;; y1 <- vget aXY (i1 * 2 + 1) ;; x2 <- vget aXY (i2 * 2 + 0) ;; y2 <- vget aXY (i2 * 2 + 1) ;;
    let a012 := Area_Tri2 (x0, y0) (x1, y1) (x2, y2) in
    m <- vmod m i0 (fun x => x + rho * a012 / 3) ;;
    m <- vmod m i1 (fun x => x + rho * a012 / 3) ;;
    vmod m i2 (fun x => x + rho * a012 / 3)) (repeat 0 nXY).
(** mshmisc.cpp:620-641; writes outside of the array of masses are None *)
Definition MassPoint_Tri3D (rho : R) (aXYZ : list R) (nXYZ : nat) (aTri : list nat) (nTri : nat) : option (list R) :=
  forn 0 nTri (fun it m =>
    i0 <- vget aTri (it * 3 + 0) ;; i1 <- vget aTri (it * 3 + 1) ;; i2 <- vget aTri (it * 3 + 2) ;;
    p0 <- xyz aXYZ i0 ;; p1 <- xyz aXYZ i1 ;; p2 <- xyz aXYZ i2 ;;
    let a012 := TriArea3D p0 p1 p2 in
    m <- vmod m i0 (fun x => x + rho * a012 / 3) ;;
    m <- vmod m i1 (fun x => x + rho * a012 / 3) ;;
    vmod m i2 (fun x => x + rho * a012 / 3)) (repeat 0 nXYZ).
