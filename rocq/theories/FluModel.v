(** Model of fluids on grids: /repo/include/delfem2/fdm_array2.h and /repo/include/delfem2/fdm_stablefluids.h.

    Numbers are reals and integers without bounds.  A failed assertion, a read or write outside of an array and a division by zero are None.
    Console output, and the number that is computed only to be written there, are left out. *)
From Coq Require Import List Arith Bool ZArith Reals.
Import ListNotations.
From Verif Require Import Imp PrModel ProxModel.
Open Scope R_scope.

(** fdm_array2.h:12-58: the members ni, nj and v *)
Record array2 (T : Type) := mkarray2 { a_ni : nat; a_nj : nat; a_v : list T }.
Arguments mkarray2 {T}. Arguments a_ni {T}. Arguments a_nj {T}. Arguments a_v {T}.
(** fdm_array2.h:15-16 *)
Definition new_array2 {T} (ni nj : nat) (x : T) : array2 T := mkarray2 ni nj (repeat x (ni * nj)).
(** fdm_array2.h:18-26: operator(), as a value; the indices of all its uses are not negative *)
Definition at2 {T} (a : array2 T) (i j : nat) : option T :=
  assertb ((i <? a_ni a) && (j <? a_nj a))%nat ;;; vget (a_v a) (i + a_ni a * j).
(** fdm_array2.h:23-26: operator(), as the target of an assignment *)
Definition put2 {T} (a : array2 T) (i j : nat) (x : T) : option (array2 T) :=
  assertb ((i <? a_ni a) && (j <? a_nj a))%nat ;;; v <- vset (a_v a) (i + a_ni a * j) x ;; Some (mkarray2 (a_ni a) (a_nj a) v).
(** fdm_array2.h:47-54 *)
Definition myclamp (iv imin imax : Z) : Z := Z.min (Z.max imin iv) imax.
(** fdm_array2.h:28-45: ClampedFetch *)
Definition fetch2 {T} (a : array2 T) (i j : Z) : option T :=
  let i := myclamp i 0 (Z.of_nat (a_ni a) - 1) in let j := myclamp j 0 (Z.of_nat (a_nj a) - 1) in
  assertb ((0 <=? i) && (i <? Z.of_nat (a_ni a)) && (0 <=? j) && (j <? Z.of_nat (a_nj a)))%Z ;;;
  vget (a_v a) (a_ni a * Z.to_nat j + Z.to_nat i).
(** std::array<double, 2>: element idim *)
Definition elem2 (x : R * R) (idim : nat) : option R := match idim with O => Some (fst x) | S O => Some (snd x) | _ => None end.
(** fdm_array2.h:60-83; the numbers that are converted to integers are not negative *)
Definition LinearInterpolationOnGrid2 (data : array2 (R * R)) (idim : nat) (x y : R) : option R :=
  let mymin := fun a b => if ltR a b then a else b in
  let mymax := fun a b => if ltR b a then a else b in
  let x1 := mymax 0 (mymin (INR (a_ni data) - 1 - e10) x) in
  let y1 := mymax 0 (mymin (INR (a_nj data) - 1 - e10) y) in
  let i := Z.to_nat (Int_part x1) in
  let j := Z.to_nat (Int_part y1) in
  assertb (i <? a_ni data - 1)%nat ;;;
  assertb (j <? a_nj data - 1)%nat ;;;
  p00 <- at2 data i j ;; v00 <- elem2 p00 idim ;;
  p10 <- at2 data (i + 1) j ;; v10 <- elem2 p10 idim ;;
  p01 <- at2 data i (j + 1) ;; v01 <- elem2 p01 idim ;;
  p11 <- at2 data (i + 1) (j + 1) ;; v11 <- elem2 p11 idim ;;
  let rx := x - INR i in
  let ry := y - INR j in
  Some ((1 - rx) * (1 - ry) * v00 + rx * (1 - ry) * v10 + (1 - rx) * ry * v01 + rx * ry * v11).

Definition has_size {T} (a : array2 T) (ni nj : nat) : bool := ((a_ni a =? ni) && (a_nj a =? nj))%nat.
(** fdm_stablefluids.h:27-34: the update of one cell *)
Definition relax (d : array2 R) (scale : R) (i j : nat) (p : array2 R) : option (array2 R) :=
  p21 <- fetch2 p (Z.of_nat i + 1) (Z.of_nat j) ;;
  p01 <- fetch2 p (Z.of_nat i - 1) (Z.of_nat j) ;;
  p12 <- fetch2 p (Z.of_nat i) (Z.of_nat j + 1) ;;
  p10 <- fetch2 p (Z.of_nat i) (Z.of_nat j - 1) ;;
  d0 <- at2 d i j ;;
  put2 p i j ((p21 + p01 + p12 + p10 - d0 * scale) / 4).
(** fdm_stablefluids.h:14-41 *)
Definition SolvePoissionEquationOnGrid2ByGaussSeidelMethod (p d : array2 R) (scale : R) (nx ny num_iteration : nat) : option (array2 R) :=
  assertb (has_size p nx ny) ;;; assertb (has_size d nx ny) ;;;
  forn 0 num_iteration (fun _ p => forn 0 ny (fun j p => forn 0 nx (fun i p => relax d scale i j p) p) p) p.
(** fdm_stablefluids.h:43-60 *)
Definition Divergence_StaggerdGrid2 (divag : array2 R) (ni_grid nj_grid : nat) (velou velov : array2 R) (h : R) : option (array2 R) :=
  assertb (has_size divag ni_grid nj_grid) ;;; assertb (has_size velou (ni_grid + 1) nj_grid) ;;; assertb (has_size velov ni_grid (nj_grid + 1)) ;;;
  forn 0 nj_grid (fun jg divag => forn 0 ni_grid (fun ig divag =>
    u1 <- at2 velou (ig + 1) jg ;; u0 <- at2 velou ig jg ;;
    v1 <- at2 velov ig (jg + 1) ;; v0 <- at2 velov ig jg ;;
    if eqR h 0 then None else put2 divag ig jg ((u1 - u0 + (v1 - v0)) / h)) divag) divag.
(** fdm_stablefluids.h:62-79 *)
Definition Divergence_CellCenteredGrid2 (divag : array2 R) (ni_grid nj_grid : nat) (velo : array2 (R * R)) (h : R) : option (array2 R) :=
  assertb (has_size divag ni_grid nj_grid) ;;; assertb (has_size velo ni_grid nj_grid) ;;;
  forn 1 (nj_grid - 1) (fun jg divag => forn 1 (ni_grid - 1) (fun ig divag =>
    right_u <- at2 velo (ig + 1) jg ;; left_u <- at2 velo (ig - 1) jg ;;
    up_v <- at2 velo ig (jg + 1) ;; down_v <- at2 velo ig (jg - 1) ;;
    if eqR h 0 then None else put2 divag ig jg ((fst left_u - fst right_u + snd down_v - snd up_v) / h)) divag) divag.
(** fdm_stablefluids.h:81-105 *)
Definition SubstructPressureGradient_StaggeredGrid2 (velou velov : array2 R) (ni_grid nj_grid : nat) (scale : R) (press : array2 R) : option (array2 R * array2 R) :=
  assertb (has_size velou (ni_grid + 1) nj_grid) ;;; assertb (has_size velov ni_grid (nj_grid + 1)) ;;; assertb (has_size press ni_grid nj_grid) ;;;
  velou <- forn 0 (ni_grid - 1) (fun ig velou => forn 0 nj_grid (fun jg velou =>
    p1 <- at2 press (ig + 1) jg ;; p0 <- at2 press (ig + 0) jg ;;
    u <- at2 velou (ig + 1) jg ;; put2 velou (ig + 1) jg (u - scale * (p1 - p0))) velou) velou ;;
  velov <- forn 0 ni_grid (fun ig velov => forn 0 (nj_grid - 1) (fun jg velov =>
    p1 <- at2 press ig (jg + 1) ;; p0 <- at2 press ig (jg + 0) ;;
    v <- at2 velov ig (jg + 1) ;; put2 velov ig (jg + 1) (v - scale * (p1 - p0))) velov) velov ;;
  Some (velou, velov).
(** fdm_stablefluids.h:107-125 *)
Definition SubstructPressureGradient_CellCenteredGrid2 (velo : array2 (R * R)) (ni_grid nj_grid : nat) (scale : R) (press : array2 R) : option (array2 (R * R)) :=
  assertb (has_size velo ni_grid nj_grid) ;;; assertb (has_size press ni_grid nj_grid) ;;;
  forn 1 (ni_grid - 1) (fun ig velo => forn 1 (nj_grid - 1) (fun jg velo =>
    right <- at2 press (ig + 1) jg ;; left <- at2 press (ig - 1) jg ;;
    up <- at2 press ig (jg + 1) ;; down <- at2 press ig (jg - 1) ;;
    x <- at2 velo ig jg ;;
    put2 velo ig jg (fst x - scale * (left - right) * (1 / 2), snd x - scale * (down - up) * (1 / 2))) velo) velo.
(** fdm_stablefluids.h:139-149 *)
Definition faces_u (velou velov : array2 R) (ni_grid nj_grid : nat) (velou_tmp : array2 (R * R)) : option (array2 (R * R)) :=
  forn 0 (nj_grid + 0) (fun jg tmp => forn 0 (ni_grid + 1) (fun ig tmp =>
    v01 <- fetch2 velov (Z.of_nat ig - 1) (Z.of_nat jg + 0) ;;
    v11 <- fetch2 velov (Z.of_nat ig + 0) (Z.of_nat jg + 0) ;;
    v02 <- fetch2 velov (Z.of_nat ig - 1) (Z.of_nat jg + 1) ;;
    v12 <- fetch2 velov (Z.of_nat ig + 0) (Z.of_nat jg + 1) ;;
    u <- at2 velou ig jg ;;
    put2 tmp ig jg (u, (v01 + v11 + v02 + v12) * (1 / 4))) tmp) velou_tmp.
(** fdm_stablefluids.h:151-161 *)
Definition faces_v (velou velov : array2 R) (ni_grid nj_grid : nat) (velov_tmp : array2 (R * R)) : option (array2 (R * R)) :=
  forn 0 (ni_grid + 0) (fun ig tmp => forn 0 (nj_grid + 1) (fun jg tmp =>
    u10 <- fetch2 velou (Z.of_nat ig + 0) (Z.of_nat jg - 1) ;;
    u20 <- fetch2 velou (Z.of_nat ig + 1) (Z.of_nat jg - 1) ;;
    u11 <- fetch2 velou (Z.of_nat ig + 0) (Z.of_nat jg + 0) ;;
    u21 <- fetch2 velou (Z.of_nat ig + 1) (Z.of_nat jg + 0) ;;
    v <- at2 velov ig jg ;;
    put2 tmp ig jg ((u10 + u20 + u11 + u21) * (1 / 4), v)) tmp) velov_tmp.
(** fdm_stablefluids.h:163-170 and 172-179: the values at the places where the flow was dt before, for the component idim *)
Definition carry (tmp : array2 (R * R)) (idim ni nj : nat) (dt h : R) (velo : array2 R) : option (array2 R) :=
  forn 0 nj (fun jg a => forn 0 ni (fun ig a =>
    x <- at2 tmp ig jg ;;
    if eqR h 0 then None else
    u <- LinearInterpolationOnGrid2 tmp idim (INR ig - fst x * dt / h) (INR jg - snd x * dt / h) ;;
    put2 a ig jg u) a) velo.
(** fdm_stablefluids.h:127-180; answers the new values of velou, velov, velou_tmp and velov_tmp *)
Definition AdvectionSemiLagrangian_StaggeredGrid2 (velou velov : array2 R) (velou_tmp velov_tmp : array2 (R * R)) (ni_grid nj_grid : nat) (dt h : R) : option (array2 R * array2 R * array2 (R * R) * array2 (R * R)) :=
  assertb (has_size velou (ni_grid + 1) nj_grid) ;;; assertb (has_size velov ni_grid (nj_grid + 1)) ;;; assertb ((0 <? ni_grid) && (0 <? nj_grid))%nat ;;;
  velou_tmp <- faces_u velou velov ni_grid nj_grid velou_tmp ;;
  velov_tmp <- faces_v velou velov ni_grid nj_grid velov_tmp ;;
  velou <- carry velou_tmp 0 (ni_grid + 1) (nj_grid + 0) dt h velou ;;
  velov <- carry velov_tmp 1 (ni_grid + 0) (nj_grid + 1) dt h velov ;;
  Some (velou, velov, velou_tmp, velov_tmp).
(** fdm_stablefluids.h:182-202; answers the new velo *)
Definition AdvectionSemiLagrangian_CellCenteredGrid2 (velo velo_tmp : array2 (R * R)) (ni_grid nj_grid : nat) (dt h : R) : option (array2 (R * R)) :=
  assertb (has_size velo ni_grid nj_grid) ;;; assertb (has_size velo_tmp ni_grid nj_grid) ;;; assertb ((0 <? ni_grid) && (0 <? nj_grid))%nat ;;;
  let velo_tmp := mkarray2 (a_ni velo_tmp) (a_nj velo_tmp) (a_v velo) in
  forn 0 nj_grid (fun jg velo => forn 0 ni_grid (fun ig velo =>
    vold <- at2 velo_tmp ig jg ;;
    if eqR h 0 then None else
    u <- LinearInterpolationOnGrid2 velo_tmp 0 (INR ig - fst vold * dt / h) (INR jg - snd vold * dt / h) ;;
    v <- LinearInterpolationOnGrid2 velo_tmp 1 (INR ig - fst vold * dt / h) (INR jg - snd vold * dt / h) ;;
    put2 velo ig jg (u, v)) velo) velo.
