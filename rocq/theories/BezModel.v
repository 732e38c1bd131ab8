(** Model of the Bezier part of /repo/include/delfem2/geo_curve_quadratic.h and geo_curve_cubic.h.
    Real numbers stand for double.  A VEC is the function that gives its coordinates; functions that need the number of coordinates get it as [d].
    Where the code relies on what IEEE 754 does with 0/0, x/0 and the root of a negative number, the type [fl] adds the infinities and NaN; rounding and overflow are not modelled. *)
From Coq Require Import List Arith Bool Reals.
Import ListNotations.
From Verif Require Import Imp PrModel.
Open Scope R_scope.

Inductive fl := Fin (r : R) | Inf (pos : bool) | NaN.
(** The sign of a zero divisor is not recorded by a real number: [sz] says if it is +0. *)
Definition fdiv (sz : bool) (x y : R) : fl :=
  if eqR y 0 then (if eqR x 0 then NaN else if ltR 0 x then Inf sz else Inf (negb sz)) else Fin (x / y).
Definition fsqrt (x : R) : fl := if ltR x 0 then NaN else Fin (sqrt x).
Definition fadd (a b : fl) : fl :=
  match a, b with
  | Fin x, Fin y => Fin (x + y)
  | Inf p, Inf q => if Bool.eqb p q then Inf p else NaN
  | Inf p, Fin _ => Inf p
  | Fin _, Inf q => Inf q
  | _, _ => NaN
  end.
Definition fneg (a : fl) : fl := match a with Fin x => Fin (- x) | Inf p => Inf (negb p) | NaN => NaN end.
Definition fmul (a b : fl) : fl :=
  match a, b with
  | Fin x, Fin y => Fin (x * y)
  | Inf p, Inf q => Inf (Bool.eqb p q)
  | Inf p, Fin x | Fin x, Inf p => if eqR x 0 then NaN else Inf (Bool.eqb p (ltR 0 x))
  | _, _ => NaN
  end.
(** a < b; false if one of them is NaN *)
Definition flt (a b : fl) : bool :=
  match a, b with
  | Fin x, Fin y => ltR x y
  | Fin _, Inf p => p
  | Inf p, Fin _ => negb p
  | Inf p, Inf q => negb p && q
  | _, _ => false
  end.
(** std::clamp *)
Definition clamp (v lo hi : fl) : fl := if flt v lo then lo else if flt hi v then hi else v.
(** std::min and std::max of an initializer list (std::min_element, std::max_element) *)
Definition fmin (x : fl) (l : list fl) : fl := fold_left (fun m y => if flt y m then y else m) l x.
Definition fmax (x : fl) (l : list fl) : fl := fold_left (fun m y => if flt m y then y else m) l x.

Definition vec := nat -> R.
Fixpoint sumR (n : nat) (f : nat -> R) : R := match n with 0%nat => 0 | S k => sumR k f + f k end.
Definition dot (d : nat) (u v : vec) : R := sumR d (fun i => u i * v i).
Definition squaredNorm (d : nat) (v : vec) : R := dot d v v.
Definition norm (d : nat) (v : vec) : R := sqrt (squaredNorm d v).

(** geo_curve_cubic.h:29-41 *)
Definition PointOnCubicBezierCurve (t : R) (p1 p2 p3 p4 : vec) : vec := fun i =>
  let tp := 1 - t in
  t * t * t * p4 i + 3 * t * t * tp * p3 i + 3 * t * tp * tp * p2 i + tp * tp * tp * p1 i.
(** geo_curve_cubic.h:43-52 *)
Definition Tangent_CubicBezierCurve (t : R) (p1 p2 p3 p4 : vec) : vec := fun i =>
  let tp := 1 - t in
  3 * t * t * p4 i + 3 * t * (2 - 3 * t) * p3 i + 3 * tp * (1 - 3 * t) * p2 i - 3 * tp * tp * p1 i.
(** geo_curve_cubic.h:54-70; for n = 1 the parameter is 0/0 *)
Definition Polyline_BezierCubic (n : nat) (p1 p2 p3 p4 : vec) : option (list vec) :=
  forn 0 n (fun i aP =>
    t <- div (INR i) (INR (n - 1)) ;;
    vset aP i (PointOnCubicBezierCurve t p1 p2 p3 p4)) (repeat (fun _ => 0) n).
(** geo_curve_quadratic.h:174-182 *)
Definition PointOnQuadraticBezierCurve (t : R) (p1 p2 p3 : vec) : vec := fun i =>
  let tp := 1 - t in
  (t * t) * p3 i + (2 * t * tp) * p2 i + (tp * tp) * p1 i.
(** geo_curve_quadratic.h:184-199 *)
Definition Polyline_BezierQuadratic (n : nat) (p1 p2 p3 : vec) : option (list vec) :=
  forn 0 n (fun i aP =>
    t <- div (INR i) (INR n - 1) ;;
    vset aP i (PointOnQuadraticBezierCurve t p1 p2 p3)) (repeat (fun _ => 0) n).
(** geo_curve_cubic.h:350-372; the eight results in order *)
Definition Split_CubicBezierCurve (p0 p1 p2 p3 : vec) (t : R) : list vec :=
  let mix := fun (q0 q1 : vec) (i : nat) => q0 i * (1 - t) + q1 i * t in
  let res1 := mix p0 p1 in
  let p11 := mix p1 p2 in
  let res2 := mix res1 p11 in
  let res6 := mix p2 p3 in
  let res5 := mix p11 res6 in
  let res4 := mix res2 res5 in
  [p0; res1; res2; res4; res4; res5; res6; p3].
(** geo_curve_quadratic.h:326-344 *)
Definition Split_QuadraticBezierCurve (p0 p1 p2 : vec) (t : R) : list vec :=
  let mix := fun (q0 q1 : vec) (i : nat) => q0 i * (1 - t) + q1 i * t in
  let res1 := mix p0 p1 in
  let res4 := mix p1 p2 in
  let res3 := mix res1 res4 in
  [p0; res1; res3; res3; res4; p2].
(** geo_curve_cubic.h:286-302 *)
Definition Area_CubicBezierCurve2 (p0 p1 p2 p3 : vec) : R :=
  let x := 0%nat in
  let y := 1%nat in
  let tmp0 := -3 * p2 x * p0 y - p3 x * p0 y
      - 3 * p2 x * p1 y
      - 3 * p3 x * p1 y
      - 6 * p3 x * p2 y
      + 6 * p2 x * p3 y
      + 10 * p3 x * p3 y
      + 3 * p1 x * (-2 * p0 y + p2 y + p3 y)
      + p0 x * (-10 * p0 y + 6 * p1 y + 3 * p2 y + p3 y) in
  (p0 x * p0 y) / 2 - (p3 x * p3 y) / 2 + tmp0 / 20.
(** geo_curve_quadratic.h:296-305 *)
Definition Area_QuadraticBezierCurve2 (p0 p1 p2 : vec) : R :=
  let x := 0%nat in
  let y := 1%nat in
  let tmp0 := p1 x * (p2 y - p0 y) + p1 y * (p0 x - p2 x) in
  let tmp1 := p0 x * p2 y - p2 x * p0 y in
  tmp0 / 3 + tmp1 / 6.
(** geo_curve_quadratic.h:116-133, coordinate i: the pair (res[i], res[i + ndim]) *)
Definition AABB_QuadraticCurve (sz : bool) (c b a : vec) (i : nat) : fl * fl :=
  let p2 := a i + b i + c i in
  let t := fdiv sz (b i) (-2 * a i) in
  let t := clamp t (Fin 0) (Fin 1) in
  let extreme := fadd (Fin (c i)) (fmul t (fadd (Fin (b i)) (fmul t (Fin (a i))))) in
  (fmin (Fin (c i)) [Fin p2; extreme], fmax (Fin (c i)) [Fin p2; extreme]).
(** geo_curve_quadratic.h:311-321 *)
Definition AABB_QuadraticBezierCurve (sz : bool) (p0 p1 p2 : vec) (i : nat) : fl * fl :=
  let a := fun i => p0 i - 2 * p1 i + p2 i in
  let b := fun i => -2 * p0 i + 2 * p1 i in
  let c := p0 in
  AABB_QuadraticCurve sz c b a i.
(** geo_curve_cubic.h:308-345, coordinate i *)
Definition AABB_CubicBezierCurve (sz : bool) (p0 p1 p2 p3 : vec) (i : nat) : fl * fl :=
  let a := - p0 i + 3 * p1 i - 3 * p2 i + p3 i in
  let b := 3 * p0 i - 6 * p1 i + 3 * p2 i in
  let c := -3 * p0 i + 3 * p1 i in
  let d := p0 i in
  let eval := fun r => fadd (Fin d) (fmul r (fadd (Fin c) (fmul r (fadd (Fin b) (fmul r (Fin a)))))) in
  if ltR (Rabs a) (1 / 10 ^ 10) then
    let r := clamp (fdiv sz c (-2 * b)) (Fin 0) (Fin 1) in
    let e := eval r in
    (fmin (Fin (p0 i)) [Fin (p3 i); e], fmax (Fin (p0 i)) [Fin (p3 i); e])
  else
    let det := fsqrt (b * b - 3 * a * c) in
    let over := fun n => match n with Fin n => fdiv sz n (3 * a) | _ => n end in
    let r0 := over (fadd (Fin (- b)) det) in
    let r1 := over (fadd (Fin (- b)) (fneg det)) in
    let r0 := clamp r0 (Fin 0) (Fin 1) in
    let r1 := clamp r1 (Fin 0) (Fin 1) in
    let e0 := eval r0 in
    let e1 := eval r1 in
    (fmin (Fin (p0 i)) [Fin (p3 i); e0; e1], fmax (Fin (p0 i)) [Fin (p3 i); e0; e1]).

(** The sampling loop and the Newton loop of Nearest_QuadraticBezierCurve (geo_curve_quadratic.h:246-275) and of Nearest_CubicBezierCurve (geo_curve_cubic.h:204-239), which differ only in the distance function and the polynomials dw and ddw *)
Definition nearest (sz : nat -> bool) (dist dw ddw : R -> R) (num_samples num_newton_itr : nat) : option fl :=
  '(t, dist_min) <- forn 1 (num_samples + 1) (fun i '(t, dist_min) =>
     t0 <- div (INR i) (INR num_samples) ;;
     let dist0 := dist t0 in
     if ltR dist0 dist_min then Some (t0, dist0) else Some (t, dist_min)) (0, dist 0) ;;
  '(t, _) <- forb 0 num_newton_itr (fun itr '(t, dist_min) =>
     let t0 := t in
     let t := match t with Fin x => fadd t (fneg (fdiv (sz itr) (dw x) (ddw x))) | _ => t end in
     let t := if flt t (Fin 0) then Fin 0 else t in
     let t := if flt (Fin 1) t then Fin 1 else t in
     let dist0 := match t with Fin x => Fin (dist x) | _ => NaN end in
     if flt dist_min dist0 then Some ((t0, dist_min), true) else Some ((t, dist0), false)) (Fin t, Fin dist_min) ;;
  Some t.
(** geo_curve_quadratic.h:228-276 *)
Definition Nearest_QuadraticBezierCurve (sz : nat -> bool) (d : nat) (q p0 p1 p2 : vec) (num_samples num_newton_itr : nat) : option fl :=
  let a := fun i => p0 i - 2 * p1 i + p2 i in
  let b := fun i => -2 * p0 i + 2 * p1 i in
  let c := fun i => p0 i - q i in
  let dist := fun t => norm d (fun i => a i * (t * t) + b i * t + c i) in
  let s0 := 2 * dot d b c in
  let s1 := 2 * squaredNorm d b + 4 * dot d a c in
  let s2 := 6 * dot d a b in
  let s3 := 4 * squaredNorm d a in
  let u0 := s1 in
  let u1 := 2 * s2 in
  let u2 := 3 * s3 in
  nearest sz dist (fun t => s0 + t * (s1 + t * (s2 + t * s3))) (fun t => u0 + t * (u1 + t * u2)) num_samples num_newton_itr.
(** geo_curve_cubic.h:186-240; the first distance is written (p0 - q).norm(), which is the distance at t = 0 *)
Definition Nearest_CubicBezierCurve (sz : nat -> bool) (dm : nat) (q p0 p1 p2 p3 : vec) (num_samples num_newton_itr : nat) : option fl :=
  let a := fun i => - p0 i + 3 * p1 i - 3 * p2 i + p3 i in
  let b := fun i => 3 * p0 i - 6 * p1 i + 3 * p2 i in
  let c := fun i => -3 * p0 i + 3 * p1 i in
  let d := fun i => p0 i - q i in
  let dist := fun t => norm dm (fun i => a i * (t * t * t) + b i * (t * t) + c i * t + d i) in
  let s0 := 2 * dot dm c d in
  let s1 := 2 * squaredNorm dm c + 4 * dot dm b d in
  let s2 := 6 * dot dm b c + 6 * dot dm a d in
  let s3 := 4 * squaredNorm dm b + 8 * dot dm a c in
  let s4 := 10 * dot dm a b in
  let s5 := 6 * squaredNorm dm a in
  let u0 := s1 in
  let u1 := 2 * s2 in
  let u2 := 3 * s3 in
  let u3 := 4 * s4 in
  let u4 := 5 * s5 in
  nearest sz dist (fun t => s0 + t * (s1 + t * (s2 + t * (s3 + t * (s4 + t * s5))))) (fun t => u0 + t * (u1 + t * (u2 + t * (u3 + t * u4)))) num_samples num_newton_itr.

(** std::log *)
Definition flog (x : R) : fl := if ltR x 0 then NaN else if eqR x 0 then Inf false else Fin (ln x).
(** geo_curve_quadratic.h:62-83; the branch for |q2|^2 < 1e-5 (numerical quadrature) is not modelled *)
Definition Length_QuadraticCurve (d : nat) (q1 q2 : vec) : option fl :=
  if ltR (squaredNorm d q2) (1 / 10 ^ 5) then None else
  let coe0 := squaredNorm d q1 in
  let coe1 := 4 * dot d q1 q2 in
  let coe2 := 4 * squaredNorm d q2 in
  let intt := fun t =>
    let tmp0 := (coe1 + 2 * coe2 * t) * sqrt (coe0 + t * (coe1 + coe2 * t)) in
    let tmp3 := sqrt coe2 in
    let tmp1 := coe1 + 2 * coe2 * t + 2 * tmp3 * sqrt (coe0 + t * (coe1 + coe2 * t)) in
    let tmp2 := fmul (Fin (coe1 * coe1 - 4 * coe0 * coe2)) (flog tmp1) in
    fadd (Fin (tmp0 / (4 * coe2))) (fneg (fmul tmp2 (Fin (1 / (8 * coe2 * tmp3))))) in
  Some (fadd (intt 1) (fneg (intt 0))).
(** geo_curve_quadratic.h:213-223 *)
Definition Length_QuadraticBezierCurve_Analytic (d : nat) (p0 p1 p2 : vec) : option fl :=
  let q2 := fun i => p0 i - 2 * p1 i + p2 i in
  let q1 := fun i => -2 * p0 i + 2 * p1 i in
  Length_QuadraticCurve d q1 q2.
