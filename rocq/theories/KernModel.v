(** Model of the kernels of particles on grids in /repo/include/delfem2/grid3hash.h and of /repo/include/delfem2/img_interpolation.cpp.

    Numbers are reals and integers without bounds; pixels are natural numbers.  A failed assertion and a read outside of the image are None. *)
From Coq Require Import List Arith Bool ZArith Reals.
Import ListNotations.
From Verif Require Import Imp PrModel.
Open Scope R_scope.

(** grid3hash.h:38-47 *)
Definition WGrid1Cubic (x : R) : R :=
  let x_abs := Rabs x in
  if ltR x_abs 1 then x_abs ^ 3 / 2 - x_abs ^ 2 + 2 / 3 else
  if ltR x_abs 2 then - x_abs ^ 3 / 6 + x_abs ^ 2 - 2 * x_abs + 4 / 3 else 0.
(** grid3hash.h:49-57 *)
Definition dWGrid1Cubic (x : R) : R :=
  let x_abs := Rabs x in
  if ltR x_abs 1 then x * x_abs * 3 / 2 - 2 * x else
  if ltR x_abs 2 then - x * x_abs / 2 + 2 * x - 2 * x / x_abs else 0.
(** grid3hash.h:59-68 *)
Definition WGrid3Cubic (h_inverse x_offset y_offset z_offset : R) : R :=
  WGrid1Cubic (h_inverse * x_offset) * WGrid1Cubic (h_inverse * y_offset) * WGrid1Cubic (h_inverse * z_offset).
(** grid3hash.h:70-79 *)
Definition dWGrid3Cubic (h_inverse d_offset offset1 offset2 : R) : R :=
  dWGrid1Cubic (h_inverse * d_offset) * WGrid1Cubic (h_inverse * offset1) * WGrid1Cubic (h_inverse * offset2) * h_inverse.

(** img_interpolation.cpp:13-42; the third and the fourth assertion are the same: iy1 is not tested *)
Definition ImageInterpolation_Bilinear (width height : Z) (img : list nat) (x y : R) : option (list R) :=
  let ix0 := Int_part x in
  let iy0 := Int_part y in
  let ix1 := (ix0 + 1)%Z in
  let ix1 := if (ix1 =? width)%Z then (width - 1)%Z else ix1 in
  let iy1 := (iy0 + 1)%Z in
  let iy1 := if (iy1 =? height)%Z then (height - 1)%Z else iy1 in
  assertb ((0 <=? ix0) && (ix0 <? width))%Z ;;;
  assertb ((0 <=? iy0) && (iy0 <? height))%Z ;;;
  assertb ((0 <=? ix1) && (ix1 <? width))%Z ;;;
  let rx := x - IZR ix0 in
  let ry := y - IZR iy0 in
  let w00 := 1 / 255 * (1 - rx) * (1 - ry) in
  let w01 := 1 / 255 * (1 - rx) * ry in
  let w10 := 1 / 255 * rx * (1 - ry) in
  let w11 := 1 / 255 * rx * ry in
  let read := fun ix iy i => vget img (Z.to_nat ((ix + iy * width) * 3) + i) in
  forn 0 3 (fun i color =>
    p00 <- read ix0 iy0 i ;; p01 <- read ix0 iy1 i ;; p10 <- read ix1 iy0 i ;; p11 <- read ix1 iy1 i ;;
    Some (color ++ [w00 * INR p00 + w01 * INR p01 + w10 * INR p10 + w11 * INR p11])) [].
