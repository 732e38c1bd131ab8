(** Model of polylines: /repo/include/delfem2/geo_polyline.h and geo_polyline.cpp.

    Numbers are reals.  The functions are templates over the type of the points and use sums, multiples and dot products of points; a CVec2 is a [vec3] with
    third coordinate 0.  A failed assertion and a read outside of an array are None.  The area and the winding number are not modelled here. *)
From Coq Require Import List Arith Bool ZArith Reals.
Import ListNotations.
From Verif Require Import Imp PrModel QuatModel ProxModel.
Open Scope R_scope.

(** geo_polyline.cpp:12-21 *)
Definition Translate2 (aP : list vec3) (dx dy : R) : list vec3 := map (fun p => V3 (vx p + dx) (vy p + dy) (vz p)) aP.
(** geo_polyline.cpp:30-38 *)
Definition Rotate2 (aP : list vec3) (dt : R) : list vec3 := map (fun p => V3 (cos dt * vx p - sin dt * vy p) (sin dt * vx p + cos dt * vy p) (vz p)) aP.
(** geo_polyline.h:53-67; the index and the least distance, None instead of UINT_MAX and -1 *)
Definition FindNearestPointInPoints (polyline : list vec3) (scr : vec3) : option (option (nat * R)) :=
  forn 0 (length polyline) (fun ip best =>
    p <- vget polyline ip ;;
    let dist := norm3 (sub3 scr p) in
    match best with
    | None => Some (Some (ip, dist))
    | Some (_, dist_min) => if ltR dist dist_min then Some (Some (ip, dist)) else Some best
    end) None.
(** geo_polyline.h:85-97 *)
Definition Length_Polyline (polyline : list vec3) : option R :=
  if (length polyline <? 2)%nat then Some 0 else
  forn 0 (length polyline - 1) (fun ip len => p1 <- vget polyline (ip + 1) ;; p0 <- vget polyline ip ;; Some (len + norm3 (sub3 p1 p0))) 0.
(** geo_polyline.h:114-130, for three dimensions; an empty polyline is read outside of the array *)
Definition AABB_Polyline (polyline : list vec3) : option (vec3 * vec3) :=
  p0 <- vget polyline 0 ;;
  let lower := fun x r => if ltR x r then x else r in
  let upper := fun x r => if ltR r x then x else r in
  forn 1 (length polyline) (fun ip res =>
    p <- vget polyline ip ;;
    let '(lo, hi) := res in
    Some (V3 (lower (vx p) (vx lo)) (lower (vy p) (vy lo)) (lower (vz p) (vz lo)), V3 (upper (vx p) (vx hi)) (upper (vy p) (vy hi)) (upper (vz p) (vz hi)))) (p0, p0).
(** geo_polyline.h:132-147 *)
Definition Sample_Polyline (polyline : list vec3) (param : R) : option vec3 :=
  assertb (0 <? length polyline)%nat ;;;
  if negb (ltR 0 param) then vget polyline 0 else
  if negb (ltR param (INR (length polyline - 1))) then vget polyline (length polyline - 1) else
  let ie := Z.to_nat (Int_part param) in
  let ratio := param - INR ie in
  assertb (negb (ltR ratio 0) && negb (ltR 1 ratio)) ;;;
  p0 <- vget polyline ie ;; p1 <- vget polyline (ie + 1) ;;
  Some (add3 (mul3 (1 - ratio) p0) (mul3 ratio p1)).
(** geo_polyline.h:149-164 *)
Definition Tangent_Polyline (polyline : list vec3) (param : R) : option vec3 :=
  let np := length polyline in
  assertb (2 <=? np)%nat ;;;
  if negb (ltR 0 param) then (p1 <- vget polyline 1 ;; p0 <- vget polyline 0 ;; Some (sub3 p1 p0)) else
  if negb (ltR param (INR np)) then (p1 <- vget polyline (np - 1) ;; p0 <- vget polyline (np - 2) ;; Some (sub3 p1 p0)) else
  let ie := Z.to_nat (Int_part param) in
  assertb (ie <? length polyline - 1)%nat ;;;
  p1 <- vget polyline (ie + 1) ;; p0 <- vget polyline ie ;; Some (sub3 p1 p0).
(** std::clamp *)
Definition clampR (v lo hi : R) : R := if ltR v lo then lo else if ltR hi v then hi else v.
(** geo_polyline.h:173-198.  The state is ie_min, ratio_min and dist_min.  A segment of length zero makes the ratio and the distance NaN: comparisons are false then, so that
    it is passed over, except if it is the first one: then the answer is NaN, which is None here. *)
Definition Nearest_Polyline (polyline : list vec3) (scr : vec3) : option R :=
  if (length polyline =? 0)%nat then Some (-1) else
  if (length polyline =? 1)%nat then Some 0 else
  best <- forn 0 (length polyline - 1) (fun ip best =>
    p0 <- vget polyline ip ;; p1 <- vget polyline (ip + 1) ;;
    let es := sub3 p1 p0 in
    let sc := sub3 p0 scr in
    let a := dot3 es es in
    let b := dot3 es sc in
    if eqR a 0 then match best with None => None | Some _ => Some best end else
    let ratio := clampR (- b / a) 0 1 in
    let p := add3 (mul3 (1 - ratio) p0) (mul3 ratio p1) in
    let dist := norm3 (sub3 p scr) in
    match best with
    | None => Some (Some (ip, ratio, dist))
    | Some (_, _, dist_min) => if ltR dist dist_min then Some (Some (ip, ratio, dist)) else Some best
    end) None ;;
  match best with None => None | Some (ie_min, ratio_min, _) => Some (INR ie_min + ratio_min) end.
(** geo_polyline.h:200-211; ixy counts from ivtx - 2 *)
Definition Smooth_Polyline (xys : list vec3) (ivtx : nat) (damping : R) : option (list vec3) :=
  if (length xys <=? ivtx)%nat then Some xys else
  forn 0 4 (fun k xys =>
    let ixy := (Z.of_nat ivtx - 2 + Z.of_nat k)%Z in
    if ((ixy - 1 <? 0) || (Z.of_nat (length xys) <=? ixy + 1))%Z then Some xys else
    x <- vget xys (Z.to_nat ixy) ;; x0 <- vget xys (Z.to_nat (ixy - 1)) ;; x1 <- vget xys (Z.to_nat (ixy + 1)) ;;
    vset xys (Z.to_nat ixy) (add3 (mul3 damping x) (mul3 (1 - damping) (add3 (mul3 (1 / 2) x0) (mul3 (1 / 2) x1))))) xys.
(** geo_polyline.h:220-244; the state is ip_min, p_min and dist_min *)
Definition ArcLengthPointInPolyline (polyline : list vec3) (scr : vec3) : option R :=
  if (length polyline <? 2)%nat then Some 0 else
  best <- forn 0 (length polyline - 1) (fun ip best =>
    p0 <- vget polyline ip ;; p1 <- vget polyline (ip + 1) ;;
    let p_near := fst (Nearest_Edge_Point scr p0 p1) in
    let dist := norm3 (sub3 p_near scr) in
    match best with
    | None => Some (Some (ip, p_near, dist))
    | Some (_, _, dist_min) => if ltR dist dist_min then Some (Some (ip, p_near, dist)) else Some best
    end) None ;;
  match best with
  | None => None
  | Some (ip_min, p_min, _) =>
    alen <- forn 0 ip_min (fun ip alen => p1 <- vget polyline (ip + 1) ;; p0 <- vget polyline ip ;; Some (alen + norm3 (sub3 p1 p0))) 0 ;;
    p0 <- vget polyline ip_min ;;
    Some (alen + norm3 (sub3 p_min p0))
  end.
(** geo_polyline.cpp:44-72; the loop is stopped after fuel rounds.  The state is stroke, jcur, rcur and lcur. *)
Definition resample_step (stroke0 : list vec3) (l : R) (st : list vec3 * nat * R * R) : option (list vec3 * nat * R * R * bool) :=
  let '(stroke, jcur, rcur, lcur) := st in
  if (length stroke0 - 1 <=? jcur)%nat then Some (st, true) else
  p1 <- vget stroke0 (jcur + 1) ;; p0 <- vget stroke0 jcur ;;
  let lenj := norm3 (sub3 p1 p0) in
  let lenjr := lenj * (1 - rcur) in
  if ltR lcur lenjr then
    if eqR lenj 0 then None else
    let rcur := rcur + lcur / lenj in
    Some ((stroke ++ [add3 (mul3 (1 - rcur) p0) (mul3 rcur p1)], jcur, rcur, l), false)
  else Some ((stroke, S jcur, 0, lcur - lenjr), false).
Definition Polyline_Resample_Polyline (fuel : nat) (stroke0 : list vec3) (l : R) : option (list vec3) :=
  match stroke0 with
  | [] => Some []
  | p :: _ => st <- loopf fuel (resample_step stroke0 l) ([p], 0%nat, 0, l) ;; let '(stroke, _, _, _) := st in Some stroke
  end.
