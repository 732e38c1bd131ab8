(** Model of the B-splines of /repo/include/delfem2/geo_curve_ndegree.h.

    Numbers are reals and integers without bounds.  The functions are templates over the type of the points, and use only sums and products with
    numbers: the points are modelled by one coordinate.  A read outside of an array, a failed assertion, a division by zero and a call of std::clamp with an empty range are None. *)
From Coq Require Import List Arith Bool ZArith Reals.
Import ListNotations.
From Verif Require Import Imp PrModel ProxModel.
Open Scope R_scope.

(** geo_curve_ndegree.h:25-36; a multiplicity below zero adds no knot, like zero *)
Definition FlatKnot (aKnotMulti : list nat) (aKnot : list R) : option (list R) :=
  assertb (length aKnot =? length aKnotMulti)%nat ;;;
  forn 0 (length aKnot) (fun ik f => n <- vget aKnotMulti ik ;; forn 0 n (fun _ f => k <- vget aKnot ik ;; Some (f ++ [k])) f) [].

(** geo_curve_ndegree.h:48-55: the value of iks after the loop *)
Definition find_span (u : R) (ndegree : nat) (aKnot : list R) : option nat :=
  forb ndegree (length aKnot - ndegree) (fun iks _ =>
    u0 <- vget aKnot iks ;; u1 <- vget aKnot (iks + 1) ;;
    if negb (ltR u (u0 - e10)) && negb (ltR (u1 + e10) u) then Some (iks, true) else Some (S iks, false)) ndegree.
(** geo_curve_ndegree.h:38-74 *)
Definition DeBoorBSpline (u : R) (ndegree : nat) (aCP aKnot : list R) : option R :=
  assertb (0 <? ndegree)%nat ;;;
  assertb (length aKnot =? length aCP + ndegree + 1)%nat ;;;
  iks <- find_span u ndegree aKnot ;;
  aTmp <- forn (iks - ndegree) (iks + 1) (fun ik a => c <- vget aCP ik ;; Some (a ++ [c])) [] ;;
  aTmp <- forn 0 ndegree (fun r a => forn 0 (ndegree - r) (fun j a =>
    u0 <- vget aKnot (j + iks - ndegree + 1 + r) ;; u1 <- vget aKnot (j + iks + 1) ;;
    if eqR (u1 - u0) 0 then None else
    let al := (u - u0) / (u1 - u0) in
    x <- vget a j ;; y <- vget a (j + 1) ;; vset a j ((1 - al) * x + al * y)) a) aTmp ;;
  vget aTmp 0.
(** geo_curve_ndegree.h:76-91; for a number of samples that is not negative *)
Definition SampleBSpline (nsmpl ndegree : nat) (aKnotFlat aCtrlPoint : list R) : option (list R) :=
  u0 <- vget aKnotFlat 0 ;; u1 <- vget aKnotFlat (length aKnotFlat - 1) ;;
  forn 0 (nsmpl + 1) (fun i pl => if (nsmpl =? 0)%nat then None else
    p <- DeBoorBSpline (INR i * (u1 - u0) / INR nsmpl + u0) ndegree aCtrlPoint aKnotFlat ;; Some (pl ++ [p])) [].

(** geo_curve_ndegree.h:101-103 *)
Definition safe_divide (a : R) (b : Z) : R := if (b =? 0)%Z then 0 else a / IZR b.
Definition get2 (c : list (list R)) (j q : nat) : option R := r <- vget c j ;; vget r q.
Definition set2 (c : list (list R)) (j q : nat) (x : R) : option (list (list R)) := r <- vget c j ;; r' <- vset r q x ;; vset c j r'.
(** geo_curve_ndegree.h:115-129: one step for row j *)
Definition segment_row (n i j : nat) (knot : list Z) (c : list (list R)) : option (list (list R)) :=
  kj <- vget knot j ;; ke <- vget knot (j + i - 1) ;; kf <- vget knot (j + i) ;; ks <- vget knot (j + 1) ;;
  let coe0 := - safe_divide (IZR kj) (ke - kj) in
  let coe1 := safe_divide (IZR kf) (kf - ks) in
  let coe2 := safe_divide 1 (ke - kj) in
  let coe3 := - safe_divide 1 (kf - ks) in
  c <- ford (n - 1) 0 (fun m c =>
    x0 <- get2 c j m ;; x1 <- get2 c (j + 1) m ;; x2 <- get2 c j (m - 1) ;; x3 <- get2 c (j + 1) (m - 1) ;;
    set2 c j m (coe0 * x0 + coe1 * x1 + coe2 * x2 + coe3 * x3)) c ;;
  x0 <- get2 c j 0 ;; x1 <- get2 c (j + 1) 0 ;; set2 c j 0 (coe0 * x0 + coe1 * x1).
(** geo_curve_ndegree.h:105-131: the table of the coefficients *)
Definition segment_table (n : nat) (knot : list Z) : option (list (list R)) :=
  c <- set2 (repeat (repeat 0 n) (n + 1)) (n - 1) 0 1 ;;
  forn 2 (n + 1) (fun i c => forn 0 n (fun j c => segment_row n i j knot c) c) c.
(** geo_curve_ndegree.h:93-146 *)
Definition Sample_BsplineCurveSegment (n : nat) (t : R) (knot : list Z) (polyloc : list R) : option R :=
  assertb (negb (ltR t 0) && negb (ltR 1 t)) ;;;
  c <- segment_table n knot ;;
  weight <- forn 0 (n + 1) (fun i w =>
    x <- get2 c i (n - 1) ;; x <- forn 1 n (fun j x => y <- get2 c i (n - 1 - j) ;; Some (x * t + y)) x ;; Some (w ++ [x])) [] ;;
  forn 0 n (fun i p => x <- vget polyloc i ;; w <- vget weight i ;; Some (p + x * w)) 0.

(** the conversion of a floating point number to an integer *)
Definition trunc_int (t : R) : Z := if ltR t 0 then (- Int_part (- t))%Z else Int_part t.
(** std::clamp *)
Definition clampZ (x lo hi : Z) : Z := if (x <? lo)%Z then lo else if (hi <? x)%Z then hi else x.
Definition vgetZ {A} (v : list A) (i : Z) : option A := if (i <? 0)%Z then None else vget v (Z.to_nat i).
(** geo_curve_ndegree.h:148-168; n is norderplus1 *)
Definition Sample_BsplineCurve (n : nat) (t : R) (poly : list R) : option R :=
  let N := (Z.of_nat (length poly) + 1 - Z.of_nat n)%Z in
  let index := (trunc_int t + (if eqR t (IZR N) then -1 else 0))%Z in
  assertb ((0 <=? index) && (index <? Z.of_nat (length poly) + Z.of_nat n - 1))%Z ;;;
  assertb (0 <=? N)%Z ;;;
  let knot := map (fun i => (clampZ (index + Z.of_nat i - (Z.of_nat n - 1)) 0 N - index)%Z) (seq 0 (n * 2)) in
  polyloc <- forn 0 n (fun i a => x <- vgetZ poly (index + Z.of_nat i) ;; Some (a ++ [x])) [] ;;
  Sample_BsplineCurveSegment n (t - IZR index) knot polyloc.
(** geo_curve_ndegree.h:170-193 *)
Definition Sample_BsplineDerivative (n : nat) (t : R) (poly : list R) : option R :=
  let N := (Z.of_nat (length poly) + 1 - Z.of_nat n)%Z in
  assertb (0 <=? N)%Z ;;;
  if (N =? 0)%Z then None else
  let kg := fun i => IZR (clampZ (i - Z.of_nat n + 1) 0 N) / IZR N in
  let index := trunc_int (t + (if eqR t (IZR N) then -1 else 0)) in
  Q_poly <- forn 0 (n - 1) (fun j a => let i := (index + Z.of_nat j)%Z in
    let d := kg (i + Z.of_nat n)%Z - kg (i + 1)%Z in
    if eqR d 0 then None else
    let w := INR (n - 1) / d in
    x1 <- vgetZ poly (i + 1) ;; x0 <- vgetZ poly i ;; Some (a ++ [w * (x1 - x0)])) [] ;;
  let knot := map (fun i => (clampZ (index + Z.of_nat i - Z.of_nat n + 2) 0 N - index)%Z) (seq 0 (n * 2 - 2)) in
  x <- Sample_BsplineCurveSegment (n - 1) (t - IZR index) knot Q_poly ;; Some (x / IZR N).
