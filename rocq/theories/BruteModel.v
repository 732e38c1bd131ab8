(** Model of the brute force searches on meshes of /repo/include/delfem2/srch_bruteforce.cpp and of the points on meshes of
    point_on_surface_mesh.cpp.

    Numbers are reals.  A read outside of an array and a failed assertion are None.  UINT_MAX and the index -1 of "no element" are None
    inside of the answer.  A std::map with real keys is the list of its entries in the order of the keys, a std::multimap with indices as
    keys a list of entries in which the entries of one key are in the order of insertion. *)
From Coq Require Import List Arith Bool ZArith Reals.
Import ListNotations.
From Verif Require Import Imp PrModel QuatModel ProxModel IsecModel MeasModel EditModel.
Open Scope R_scope.

(** point_on_surface_mesh.h:30-40: itri, r0 and r1 *)
Definition pes : Type := (nat * R * R)%type.
(** point_on_surface_mesh.cpp:14-27, 36-51 *)
Definition PositionOnMeshTri3 (p : pes) (vtx_xyz : list R) (tri_vtx : list nat) : option vec3 :=
  let '(itri, r0, r1) := p in
  assertb (itri <? length tri_vtx / 3) ;;;
  '(p0, p1, p2) <- tri3 tri_vtx vtx_xyz itri ;;
  Some (add3 (add3 (mul3 r0 p0) (mul3 r1 p1)) (mul3 (1 - r0 - r1) p2)).
(** point_on_surface_mesh.cpp:63-76, 85-101: a normal of length 0 (NaN) is None *)
Definition UnitNormalOnMeshTri3 (p : pes) (vtx_normal : list R) (tri_vtx : list nat) : option vec3 :=
  let '(itri, r0, r1) := p in
  assertb (itri <? length tri_vtx / 3) ;;;
  '(n0, n1, n2) <- tri3 tri_vtx vtx_normal itri ;;
  normalized (add3 (add3 (mul3 r0 n0) (mul3 r1 n1)) (mul3 (1 - r0 - r1) n2)).
(** point_on_surface_mesh.cpp:174-185 *)
Definition Check (p : pes) (tri_vtx : list nat) (eps : R) : bool :=
  let '(itri, r0, r1) := p in
  if negb (itri <? length tri_vtx / 3) then false else
  if ltR r0 (- eps) || ltR (1 + eps) r0 then false else
  if ltR r1 (- eps) || ltR (1 + eps) r1 then false else
  let r2 := 1 - r0 - r1 in
  if ltR r2 (- eps) || ltR (1 + eps) r2 then false else true.
(** point_on_surface_mesh.cpp:147-165 *)
Definition PositionOnGrid2 (p : pes) (nx : nat) (el : R) (aH : list R) : option vec3 :=
  let '(itri, r0, r1) := p in
  let iey := ((itri / 2) / nx)%nat in
  let iex := (itri / 2 - nx * iey)%nat in
  h00 <- vget aH ((iey + 0) * nx + (iex + 0)) ;;
  h10 <- vget aH ((iey + 0) * nx + (iex + 1)) ;;
  h01 <- vget aH ((iey + 1) * nx + (iex + 0)) ;;
  h11 <- vget aH ((iey + 1) * nx + (iex + 1)) ;;
  let p00 := V3 (INR (iex + 0) * el) (INR (iey + 0) * el) h00 in
  let p10 := V3 (INR (iex + 1) * el) (INR (iey + 0) * el) h10 in
  let p01 := V3 (INR (iex + 0) * el) (INR (iey + 1) * el) h01 in
  let p11 := V3 (INR (iex + 1) * el) (INR (iey + 1) * el) h11 in
  Some (if (itri mod 2 =? 0)%nat then add3 (add3 (mul3 r0 p00) (mul3 r1 p10)) (mul3 (1 - r0 - r1) p11)
        else add3 (add3 (mul3 r0 p00) (mul3 r1 p11)) (mul3 (1 - r0 - r1) p01)).
(** point_on_surface_mesh.cpp:118-122, srch_bruteforce.cpp:391-395: noelTetFace *)
Definition noelTetFace : list nat := [1; 2; 3; 0; 3; 2; 0; 1; 3; 0; 2; 1]%nat.
(** point_on_surface_mesh.cpp:123-131, srch_bruteforce.cpp:401-408: the corners of a face of a mesh of tetrahedra *)
Definition tetface3 (aXYZ : list R) (aTet aTetFace : list nat) (itf : nat) : option (vec3 * vec3 * vec3) :=
  itet <- vget aTetFace (itf * 2 + 0) ;;
  iface <- vget aTetFace (itf * 2 + 1) ;;
  k0 <- vget noelTetFace (iface * 3 + 0) ;; k1 <- vget noelTetFace (iface * 3 + 1) ;; k2 <- vget noelTetFace (iface * 3 + 2) ;;
  i0 <- vget aTet (itet * 4 + k0) ;; i1 <- vget aTet (itet * 4 + k1) ;; i2 <- vget aTet (itet * 4 + k2) ;;
  q0 <- xyz aXYZ i0 ;; q1 <- xyz aXYZ i1 ;; q2 <- xyz aXYZ i2 ;; Some (q0, q1, q2).
(** point_on_surface_mesh.cpp:113-137 *)
Definition PositionOnFaceOfMeshTet (p : pes) (aXYZ : list R) (aTet aTetFace : list nat) : option vec3 :=
  let '(itri, r0, r1) := p in
  '(q0, q1, q2) <- tetface3 aXYZ aTet aTetFace itri ;;
  let r2 := 1 - r0 - r1 in
  Some (V3 (r0 * vx q0 + r1 * vx q1 + r2 * vx q2) (r0 * vy q0 + r1 * vy q1 + r2 * vy q2) (r0 * vz q0 + r1 * vz q1 + r2 * vz q2)).

(** srch_bruteforce.cpp:98-125.  If the answer of IntersectRay_Tri3 is true it has weights *)
Definition IntersectionLine_MeshTri3 (org dir : vec3) (aTri : list nat) (aXYZ : list R) (eps : R) : option (list pes) :=
  forn 0 (length aTri / 3) (fun itri aPES =>
    '(p0, p1, p2) <- tri3 aTri aXYZ itri ;;
    match IntersectRay_Tri3 org dir p0 p1 p2 eps with
    | (true, Some (r0, r1)) => Some (aPES ++ [(itri, r0, r1)])
    | _ => Some aPES
    end) [].
(** std::map::insert: nothing happens if the key is there *)
Fixpoint map_insert {A} (k : R) (a : A) (m : list (R * A)) : list (R * A) :=
  match m with
  | [] => [(k, a)]
  | (k', a') :: r => if ltR k k' then (k, a) :: m else if eqR k k' then m else (k', a') :: map_insert k a r
  end.
(** srch_bruteforce.cpp:138-157 *)
Definition IntersectionRay_MeshTri3 (org dir : vec3) (aTri : list nat) (aXYZ : list R) (eps : R) : option (list (R * pes)) :=
  aPES <- IntersectionLine_MeshTri3 org dir aTri aXYZ eps ;;
  foldM (fun p m =>
    p0 <- PositionOnMeshTri3 p aXYZ aTri ;;
    let depth := dot3 (sub3 p0 org) dir in
    if ltR depth 0 then Some m else Some (map_insert depth p m)) aPES [].
(** srch_bruteforce.cpp:170-201: a hit has a direction that is not 0, so that the quotient is a number *)
Definition IntersectionRay_MeshTri3DPart (org dir : vec3) (aTri : list nat) (aXYZ : list R) (aIndTri : list nat) (eps : R) : option (list (R * pes)) :=
  foldM (fun itri m =>
    '(p0, p1, p2) <- tri3 aTri aXYZ itri ;;
    match IntersectRay_Tri3 org dir p0 p1 p2 eps with
    | (true, Some (r0, r1)) =>
      let r2 := 1 - r0 - r1 in
      let q0 := add3 (add3 (mul3 r0 p0) (mul3 r1 p1)) (mul3 r2 p2) in
      let depth := dot3 (sub3 q0 org) dir / dot3 dir dir in
      if ltR depth 0 then Some m else Some (map_insert depth (itri, r0, r1) m)
    | _ => Some m
    end) aIndTri [].
(** srch_bruteforce.cpp:216-250.  With 0 rows or columns the unsigned bounds wrap around; the model then fails *)
Definition IntersectionLine_Hightfield (aPes : list pes) (src dir : vec3) (nx ny : nat) (aH : list R) : option (list pes) :=
  assertb (length aH =? nx * ny)%nat ;;;
  assertb ((0 <? nx) && (0 <? ny))%nat ;;;
  forn 0 (ny - 1) (fun iey aPes =>
    forn 0 (nx - 1) (fun iex aPes =>
      h00 <- vget aH ((iey + 0) * nx + (iex + 0)) ;;
      h10 <- vget aH ((iey + 0) * nx + (iex + 1)) ;;
      h01 <- vget aH ((iey + 1) * nx + (iex + 0)) ;;
      h11 <- vget aH ((iey + 1) * nx + (iex + 1)) ;;
      let p00 := V3 (INR (iex + 0)) (INR (iey + 0)) h00 in
      let p10 := V3 (INR (iex + 1)) (INR (iey + 0)) h10 in
      let p01 := V3 (INR (iex + 0)) (INR (iey + 1)) h01 in
      let p11 := V3 (INR (iex + 1)) (INR (iey + 1)) h11 in
      let a1 := match IntersectRay_Tri3 src dir p00 p10 p11 (/ 10 ^ 3) with
        | (true, Some (r0, r1)) => aPes ++ [(((iey * nx + iex) * 2 + 0)%nat, r0, r1)]
        | _ => aPes
        end in
      Some match IntersectRay_Tri3 src dir p00 p11 p01 (/ 10 ^ 3) with
        | (true, Some (r0, r1)) => a1 ++ [(((iey * nx + iex) * 2 + 1)%nat, r0, r1)]
        | _ => a1
        end) aPes) aPes.

(** srch_bruteforce.cpp:270-275, 308-312: the corners seen from the point, the nearest point to the origin with its weights; min_dist < 0 is None *)
Definition nearer (best : option (R * pes)) (itri : nat) (r : vec3 * R * R) : option (R * pes) :=
  let '(p_min, r0, r1) := r in
  let dist := dot3 p_min p_min in
  match best with
  | None => Some (dist, (itri, r0, r1))
  | Some (min_dist, _) => if ltR dist min_dist then Some (dist, (itri, r0, r1)) else best
  end.
(** srch_bruteforce.cpp:254-279 *)
Definition Nearest_Point_MeshTri3D (point : vec3) (vtx_xyz : list R) (tri_vtx : list nat) : option pes :=
  best <- forn 0 (length tri_vtx / 3) (fun it best =>
    '(p0, p1, p2) <- tri3 tri_vtx vtx_xyz it ;;
    r <- Nearest_Origin3_Tri3 (sub3 p0 point) (sub3 p1 point) (sub3 p2 point) ;;
    Some (nearer best it r)) None ;;
  match best with Some (_, p) => Some p | None => None end.
(** srch_bruteforce.cpp:307, 526, 560 *)
Definition check_weights (r0 r1 : R) : bool := ltR (- e10) r0 && ltR (- e10) r1 && ltR (- e10) (1 - r0 - r1).
(** srch_bruteforce.cpp:290-315: None inside is UINT_MAX *)
Definition Nearest_Point_MeshTri3DPart (q : vec3) (aXYZ : list R) (aTri aIndTri_Cand : list nat) : option (option pes) :=
  best <- foldM (fun itri0 best =>
    '(p0, p1, p2) <- tri3 aTri aXYZ itri0 ;;
    r <- Nearest_Origin3_Tri3 (sub3 p0 q) (sub3 p1 q) (sub3 p2 q) ;;
    let '(p_min, r0, r1) := r in
    assertb (check_weights r0 r1) ;;;
    Some (nearer best itri0 r)) aIndTri_Cand None ;;
  Some match best with Some (_, p) => Some p | None => None end.
(** srch_bruteforce.cpp:511-531, 543-565: the distance and the point *)
Definition DistanceToTri (p : vec3) (itri0 : nat) (aXYZ : list R) (aTri : list nat) : option (R * pes) :=
  '(p0, p1, p2) <- tri3 aTri aXYZ itri0 ;;
  '(p_min, r0, r1) <- Nearest_Origin3_Tri3 (sub3 p0 p) (sub3 p1 p) (sub3 p2 p) ;;
  assertb (check_weights r0 r1) ;;;
  Some (norm3 p_min, (itri0, r0, r1)).
(** srch_bruteforce.cpp:445-465, 478-498: the signed distance and n0 *)
Definition SDFNormal_NearestPoint (p0 : vec3) (p : pes) (aXYZ : list R) (aTri : list nat) (aNorm : list R) : option (R * vec3) :=
  q1 <- PositionOnMeshTri3 p aXYZ aTri ;;
  let dist := norm3 (sub3 q1 p0) in
  n1 <- UnitNormalOnMeshTri3 p aNorm aTri ;;
  if ltR 0 (dot3 (sub3 q1 p0) n1) then
    n0 <- (if ltR dist (/ 10 ^ 6) then Some n1 else normalized (sub3 q1 p0)) ;; Some (dist, n0)
  else
    n0 <- (if ltR dist (/ 10 ^ 6) then Some n1 else normalized (sub3 p0 q1)) ;; Some (- dist, n0).

(** srch_bruteforce.h:30-34, 55-57: ielem, r0, r1 and r2 of a point in a mesh of tetrahedra *)
Definition pis : Type := (nat * R * R * R)%type.
(** srch_bruteforce.h:35-39 *)
Definition isInside (p : pis) (eps : R) : bool :=
  let '(_, r0, r1, r2) := p in
  let r3 := 1 - r0 - r1 - r2 in
  ltR eps r0 && ltR eps r1 && ltR eps r2 && ltR eps r3.
(** srch_bruteforce.h:40-47: None is -1 *)
Definition indFace (p : pis) (eps : R) : option nat :=
  let '(_, r0, r1, r2) := p in
  let r3 := 1 - r0 - r1 - r2 in
  if ltR (Rabs r0) eps && ltR eps (Rabs r1) && ltR eps (Rabs r2) && ltR eps (Rabs r3) then Some 0%nat else
  if ltR eps (Rabs r0) && ltR (Rabs r1) eps && ltR eps (Rabs r2) && ltR eps (Rabs r3) then Some 1%nat else
  if ltR eps (Rabs r0) && ltR eps (Rabs r1) && ltR (Rabs r2) eps && ltR eps (Rabs r3) then Some 2%nat else
  if ltR eps (Rabs r0) && ltR eps (Rabs r1) && ltR eps (Rabs r2) && ltR (Rabs r3) eps then Some 3%nat else None.
(** srch_bruteforce.cpp:45-52, 71-78: the corners of a tetrahedron *)
Definition tet4 (aXYZ : list R) (aTet : list nat) (it : nat) : option (vec3 * vec3 * vec3 * vec3) :=
  ip0 <- vget aTet (it * 4 + 0) ;; ip1 <- vget aTet (it * 4 + 1) ;; ip2 <- vget aTet (it * 4 + 2) ;; ip3 <- vget aTet (it * 4 + 3) ;;
  p0 <- xyz aXYZ ip0 ;; p1 <- xyz aXYZ ip1 ;; p2 <- xyz aXYZ ip2 ;; p3 <- xyz aXYZ ip3 ;; Some (p0, p1, p2, p3).
(** srch_bruteforce.cpp:40-54 *)
Definition getPos_Tet (p : pis) (aXYZ : list R) (aTet : list nat) : option vec3 :=
  let '(ielem, r0, r1, r2) := p in
  assertb (ielem <? length aTet / 4)%nat ;;;
  '(p0, p1, p2, p3) <- tet4 aXYZ aTet ielem ;;
  Some (add3 (add3 (add3 (mul3 r0 p0) (mul3 r1 p1)) (mul3 r2 p2)) (mul3 (1 - r0 - r1 - r2) p3)).
(** srch_bruteforce.cpp:63-88.  Volume_Tet (22-34) is that of geo_plane.cpp.  None inside: the volume is 0, the weights are NaN or infinite *)
Definition setPos_Tet (it0 : nat) (q : vec3) (aXYZ : list R) (aTet : list nat) : option (option pis) :=
  assertb (it0 <? length aTet / 4)%nat ;;;
  '(p0, p1, p2, p3) <- tet4 aXYZ aTet it0 ;;
  let v0 := Volume_Tet q p1 p2 p3 in
  let v1 := Volume_Tet p0 q p2 p3 in
  let v2 := Volume_Tet p0 p1 q p3 in
  let vt := Volume_Tet p0 p1 p2 p3 in
  Some (if eqR vt 0 then None else Some (it0, v0 / vt, v1 / vt, v2 / vt)).
(** srch_bruteforce.cpp:326-339: None inside is -1.  If the volume is 0, then a weight is NaN, or one is negative, or they are infinite and the
    fourth is negative: the point is not inside *)
Definition Nearest_Point_MeshTet3D (q : vec3) (aXYZ : list R) (aTet : list nat) : option (option pis) :=
  forb 0 (length aTet / 4) (fun itet _ =>
    p <- setPos_Tet itet q aXYZ aTet ;;
    match p with
    | Some pt => if isInside pt (- / 10 ^ 4) then Some (Some pt, true) else Some (None, false)
    | None => Some (None, false)
    end) None.
(** srch_bruteforce.cpp:343-381: the function with a first guess.  The state is the tetrahedron, or the answer.  Volume_Tet is not declared in the
    file for this call, it is that of geo_plane.cpp *)
Definition Nearest_Point_MeshTet3D_walk (p : vec3) (itet_start : Z) (aXYZ : list R) (aTet : list nat) (aTetSurRel : list Z) : option (option pis) :=
  if (itet_start <? 0)%Z || (Z.of_nat (length aTet / 4) <=? itet_start)%Z then Some None else
  '(_, ans) <- forb 0 50 (fun _ '(itet1, _) =>
    if (itet1 =? -1)%Z then Some ((itet1, None), true) else
    assertb (0 <=? itet1)%Z ;;;
    let it := Z.to_nat itet1 in
    '(p0, p1, p2, p3) <- tet4 aXYZ aTet it ;;
    let v0 := Volume_Tet p p1 p2 p3 in
    let v1 := Volume_Tet p0 p p2 p3 in
    let v2 := Volume_Tet p0 p1 p p3 in
    let v3 := Volume_Tet p0 p1 p2 p in
    let vt := v0 + v1 + v2 + v3 in
    let eps := / 10 ^ 4 in
    if ltR (- eps * vt) v0 && ltR (- eps * vt) v1 && ltR (- eps * vt) v2 && ltR (- eps * vt) v3 then
      Some ((itet1, Some (it, v0 / vt, v1 / vt, v2 / vt)), true)
    else
      let k := if ltR v0 v1 && ltR v0 v2 && ltR v0 v3 then 0%nat
        else if ltR v1 v0 && ltR v1 v2 && ltR v1 v3 then 1%nat
        else if ltR v2 v0 && ltR v2 v1 && ltR v2 v3 then 2%nat else 3%nat in
      nxt <- vget aTetSurRel (it * 8 + k * 2 + 0) ;;
      Some ((nxt, None), false)) (itet_start, None) ;;
  Some ans.
(** srch_bruteforce.cpp:429-431: Area_Tri is not declared for CVec3, it is taken to be the area *)
Definition Area_Tri_3 (p q r : vec3) : R := norm3 (cross3 (sub3 q p) (sub3 r p)) / 2.
(** srch_bruteforce.cpp:385-441.  A total area of 0 (NaN) is None *)
Definition Nearest_Point_MeshTetFace3D (p0 : vec3) (aXYZ : list R) (aTet aTetFaceSrf : list nat) : option pes :=
  best <- forn 0 (length aTetFaceSrf / 2) (fun itf best =>
    '(q0, q1, q2) <- tetface3 aXYZ aTet aTetFaceSrf itf ;;
    '(p2, _, _) <- Nearest_Origin3_Tri3 (sub3 q0 p0) (sub3 q1 p0) (sub3 q2 p0) ;;
    let dist := norm3 p2 in
    Some match best with
    | None => Some (dist, itf, p2)
    | Some (dist_min, _, _) => if ltR dist dist_min then Some (dist, itf, p2) else best
    end) None ;;
  match best with
  | None => None
  | Some (_, itf_min, p_min) =>
    '(q0, q1, q2) <- tetface3 aXYZ aTet aTetFaceSrf itf_min ;;
    let a0 := Area_Tri_3 p_min q1 q2 in
    let a1 := Area_Tri_3 p_min q2 q0 in
    let a2 := Area_Tri_3 p_min q0 q1 in
    inva <- ndiv 1 (a0 + a1 + a2) ;;
    Some (itf_min, a0 * inva, a1 * inva)
  end.

(** srch_bruteforce.cpp:579-615.  UINT_MAX in tri_adjtri is None.  The state is res, searched and the stack with its top first; the fuel is enough
    for every triangle to be popped once for each push *)
Definition IndexesOfConnectedTriangleInSphere (pos : vec3) (rad : R) (itri0 : nat) (vtx_xyz : list R) (tri_vtx : list nat) (tri_adjtri : list (option nat)) : option (list nat) :=
  '(res, _, _) <- whilef (4 * (length tri_vtx / 3) + 2)
    (fun '(_, _, next0) => match next0 with [] => false | _ => true end)
    (fun '(res, searched, next0) =>
      match next0 with
      | [] => None
      | iel0 :: next0 =>
        if existsb (Nat.eqb iel0) searched then Some (res, searched, next0) else
        let searched := iel0 :: searched in
        '(p0, p1, p2) <- tri3 tri_vtx vtx_xyz iel0 ;;
        '(pn, _, _) <- Nearest_Triangle3_Point3 pos p0 p1 p2 ;;
        let dist_min := norm3 (sub3 pn pos) in
        if ltR rad dist_min then Some (res, searched, next0) else
        let res := res ++ [iel0] in
        next0 <- forn 0 3 (fun ie next0 =>
          iel1 <- vget tri_adjtri (iel0 * 3 + ie) ;;
          match iel1 with None => Some next0 | Some iel1 => Some (iel1 :: next0) end) next0 ;;
        Some (res, searched, next0)
      end) ([], [], [itri0]) ;;
  Some res.
(** srch_bruteforce.cpp:617-641: equal_range is the list of the entries with the key *)
Definition IsTherePointOnMeshInsideSphere (smpli : pes) (rad : R) (samples : list pes) (el_smpl : list (nat * nat)) (vtx_xyz : list R) (tri_vtx : list nat) (tri_adjtri : list (option nat)) : option bool :=
  posi <- PositionOnMeshTri3 smpli vtx_xyz tri_vtx ;;
  aIE <- IndexesOfConnectedTriangleInSphere posi rad (fst (fst smpli)) vtx_xyz tri_vtx tri_adjtri ;;
  foldM (fun ie found =>
    foldM (fun '(_, jsmpl) found =>
      if found : bool then Some true else
      smplj <- vget samples jsmpl ;;
      posj <- PositionOnMeshTri3 smplj vtx_xyz tri_vtx ;;
      let dist := norm3 (sub3 posi posj) in
      Some (ltR dist rad)) (filter (fun e => Nat.eqb (fst e) ie) el_smpl) found) aIE false.
