(** Model of /repo/include/delfem2/sampler_trimesh.h and of the colours of /repo/include/delfem2/color.cpp.

    Numbers are reals.  The numbers drawn from the random engine are arguments.  A failed assertion, a division by zero and a read outside of an array are None. *)
From Coq Require Import List Arith Bool ZArith Reals.
Import ListNotations.
From Verif Require Import Imp PrModel.
Open Scope R_scope.

(** sampler_trimesh.h:26-29 with geo_tri.h:102-110 *)
Definition Area_Tri3_at (vtx_xyz : list R) (tri_vtx : list nat) (itri : nat) : option R :=
  let point := fun ino => ip <- vget tri_vtx (itri * 3 + ino) ;; x <- vget vtx_xyz (ip * 3 + 0) ;; y <- vget vtx_xyz (ip * 3 + 1) ;; z <- vget vtx_xyz (ip * 3 + 2) ;; Some (x, y, z) in
  '(x1, y1, z1) <- point 0%nat ;; '(x2, y2, z2) <- point 1%nat ;; '(x3, y3, z3) <- point 2%nat ;;
  let x := (y2 - y1) * (z3 - z1) - (y3 - y1) * (z2 - z1) in
  let y := (z2 - z1) * (x3 - x1) - (z3 - z1) * (x2 - x1) in
  let z := (x2 - x1) * (y3 - y1) - (x3 - x1) * (y2 - y1) in
  Some (sqrt (x * x + y * y + z * z) / 2).
(** sampler_trimesh.h:18-35: cumulative_area_sum *)
Definition cumulative_area_sum (vtx_xyz : list R) (tri_vtx : list nat) : option (list R) :=
  forn 0 (length tri_vtx / 3) (fun itri cum =>
    a0 <- Area_Tri3_at vtx_xyz tri_vtx itri ;;
    t0 <- vget cum (length cum - 1) ;;
    Some (cum ++ [a0 + t0])) [0].
(** sampler_trimesh.h:70-91: cumulative_area_sum and flggedtri_tri *)
Definition cumulative_area_sum_selective (vtx_xyz : list R) (tri_vtx : list nat) (fnc : nat -> bool) : option (list R * list nat) :=
  forn 0 (length tri_vtx / 3) (fun itri '(cum, flg) =>
    if negb (fnc itri) then Some (cum, flg) else
    a0 <- Area_Tri3_at vtx_xyz tri_vtx itri ;;
    t0 <- vget cum (length cum - 1) ;;
    Some (cum ++ [a0 + t0], flg ++ [itri])) ([0], []).
(** sampler_trimesh.h:41-49 and sampler_trimesh.h:98-106: the loop; the last itri_l.  The loop ends within as many steps as there are triangles, or at an assertion. *)
Definition bisect (cum : list R) (a0 : R) (ntri : nat) : option nat :=
  '(itri_l, _) <- loopf (S ntri) (fun '(itri_l, itri_u) =>
    cl <- vget cum itri_l ;; assertb (ltR cl a0) ;;;
    cu <- vget cum itri_u ;; assertb (ltR a0 cu) ;;;
    let itri_h := ((itri_u + itri_l) / 2)%nat in
    if (itri_u - itri_l =? 1)%nat then Some ((itri_l, itri_u), true) else
    ch <- vget cum itri_h ;;
    if ltR ch a0 then Some ((itri_h, itri_u), false) else Some ((itri_l, itri_h), false)) (0%nat, ntri) ;;
  Some itri_l.
(** sampler_trimesh.h:36-60 and sampler_trimesh.h:93-117: the number of the triangle in the list of areas, and the two ratios; the second number is drawn after the search *)
Definition sample_at (cum : list R) (ntri : nat) (val01 r1 : R) : option (nat * R * R) :=
  assertb (length cum =? ntri + 1)%nat ;;;
  c <- vget cum ntri ;;
  let a0 := val01 * c in
  itri_l <- bisect cum a0 ntri ;;
  c0 <- vget cum itri_l ;; c1 <- vget cum (itri_l + 1) ;;
  assertb (ltR c0 a0) ;;;
  assertb (ltR a0 c1) ;;;
  if eqR (c1 - c0) 0 then None else
  let r0 := (a0 - c0) / (c1 - c0) in
  if ltR 1 (r0 + r1) then Some (itri_l, 1 - r1, 1 - r0) else Some (itri_l, r0, r1).
(** sampler_trimesh.h:36-60 *)
Definition Sample (vtx_xyz : list R) (tri_vtx : list nat) (val01 r1 : R) : option (nat * R * R) :=
  cum <- cumulative_area_sum vtx_xyz tri_vtx ;;
  sample_at cum (length tri_vtx / 3) val01 r1.
(** sampler_trimesh.h:93-117 *)
Definition Sample_selective (vtx_xyz : list R) (tri_vtx : list nat) (fnc : nat -> bool) (val01 r1 : R) : option (nat * R * R) :=
  '(cum, flg) <- cumulative_area_sum_selective vtx_xyz tri_vtx fnc ;;
  '(i, r0, r1) <- sample_at cum (length flg) val01 r1 ;;
  t <- vget flg i ;;
  Some (t, r0, r1).

(** A cast to int: towards 0. *)
Definition truncZ (x : R) : Z := if ltR x 0 then (- Int_part (- x))%Z else Int_part x.
(** color.cpp:10-55 *)
Definition GetRGB_HSV (h s v : R) : R * R * R :=
  let r := v in let g := v in let b := v in
  if ltR 0 s then
    let h := h * 6 in
    let i := truncZ h in
    let f := h - IZR i in
    if (i =? 1)%Z then (r * (1 - s * f), g, b * (1 - s)) else
    if (i =? 2)%Z then (r * (1 - s), g, b * (1 - s * (1 - f))) else
    if (i =? 3)%Z then (r * (1 - s), g * (1 - s * f), b) else
    if (i =? 4)%Z then (r * (1 - s * (1 - f)), g * (1 - s), b) else
    if (i =? 5)%Z then (r, g * (1 - s), b * (1 - s * f)) else
    (r, g * (1 - s * (1 - f)), b * (1 - s))
  else (r, g, b).
(** The tests with <= *)
Definition leR (a b : R) : bool := negb (ltR b a).
(** color.h:55-75 *)
Record color := Col { cr : R; cg : R; cb : R; ca : R }.
(** color.cpp:70-79 *)
Definition interpolateColor (r : R) (C0 C1 : color) : color :=
  Col ((1 - r) * cr C0 + r * cr C1) ((1 - r) * cg C0 + r * cg C1) ((1 - r) * cb C0 + r * cb C1) ((1 - r) * ca C0 + r * ca C1).
(** color.cpp:81-109 *)
Definition heatmap (input : R) : R * R * R :=
  if leR 0 input && leR input (1 / 4) then (0, input * 4, 1) else
  if ltR (1 / 4) input && leR input (1 / 2) then (0, 1, 2 - input * 4) else
  if ltR (1 / 2) input && leR input (3 / 4) then (input * 4 - 2, 1, 0) else
  if ltR (3 / 4) input && leR input 1 then (1, 4 - input * 4, 0) else
  if ltR 1 input then (1, 0, 0) else (0, 0, 1).
(** color.cpp:120-130: the loop of getColor over the pairs of neighbours *)
Fixpoint getColor_loop (input : R) (m : list (R * color)) : option color :=
  match m with
  | [] => None
  | [(_, c)] => Some c
  | (val0, c0) :: (((val1, c1) :: _) as rest) =>
      if leR val0 input && leR input val1 then
        if eqR (val1 - val0) 0 then None else Some (interpolateColor ((input - val0) / (val1 - val0)) c0 c1)
      else getColor_loop input rest
  end.
(** color.cpp:111-131 *)
Definition getColor (input : R) (m : list (R * color)) : option color :=
  match m with
  | [] => Some (Col 0 0 0 1)
  | (v, c) :: _ => if ltR input v then Some c else getColor_loop input m
  end.
(** color.cpp:143-155 *)
Definition ColorMap_BlueCyanGreenYellowRed (m : list (R * color)) (min max alpha : R) : list (R * color) :=
  let diff := (max - min) * (1 / 4) in
  m ++ [(min + diff * 0, Col 0 0 1 alpha)] ++ [(min + diff * 1, Col 0 1 1 alpha)] ++ [(min + diff * 2, Col 0 1 0 alpha)] ++ [(min + diff * 3, Col 1 1 0 alpha)] ++ [(min + diff * 4, Col 1 0 0 alpha)].
