(** Model of the random numbers and samples of /repo/include/delfem2/sampling.h.

    The three 16 bit numbers of the generator are integers; sizes of C++ types are the ones of 64 bit systems with 32 bit int.  Samples are reals, with exact square roots, sines, cosines
    and logarithms; M_PI is pi.  The functions that fill arrays from the random engines of the standard library are not modelled. *)
From Coq Require Import List Arith Bool ZArith Reals.
Import ListNotations.
From Verif Require Import Imp PrModel QuatModel ProxModel PlnModel EditModel.
Open Scope R_scope.

Definition seed := (Z * Z * Z)%type.
(** conversions to unsigned short, unsigned long and (as compilers do it on overflow) int *)
Definition u16 (z : Z) : Z := (z mod 2 ^ 16)%Z.
Definition u64 (z : Z) : Z := (z mod 2 ^ 64)%Z.
Definition i32 (z : Z) : Z := ((z + 2 ^ 31) mod 2 ^ 32 - 2 ^ 31)%Z.
(** sampling.h:18-48; the new seed and the number.  In the last sum the operands are unsigned short: they are multiplied and added as int. *)
Definition mult0 : Z := 58989. (* 0xe66d *)
Definition mult1 : Z := 57068. (* 0xdeec *)
Definition mult2 : Z := 5.     (* 0x0005 *)
Definition add48 : Z := 11.    (* 0x000b *)
Definition last_products (xseed : seed) : Z * Z * Z := let '(x0, x1, x2) := xseed in ((mult0 * x2)%Z, (mult1 * x1)%Z, (mult2 * x0)%Z).
Definition MyERand48 (xseed : seed) : seed * R :=
  let '(x0, x1, x2) := xseed in
  let accu := u64 (mult0 * x0 + add48) in
  let temp0 := u16 accu in
  let accu := Z.shiftr accu 16 in
  let accu := u64 (accu + u64 (mult0 * x1 + mult1 * x0)) in
  let temp1 := u16 accu in
  let accu := Z.shiftr accu 16 in
  let '(a, b, c) := last_products xseed in
  let accu := u64 (accu + u64 (i32 (i32 (i32 a + i32 b) + i32 c))) in
  let x0 := temp0 in let x1 := temp1 in let x2 := u16 accu in
  ((x0, x1, x2), IZR x0 / 2 ^ 48 + IZR x1 / 2 ^ 32 + IZR x2 / 2 ^ 16).
(** sampling.h:50-54 *)
Definition RandomVec2 (xi : seed) : seed * (R * R) := let '(xi, a) := MyERand48 xi in let '(xi, b) := MyERand48 xi in (xi, (a, b)).
(** sampling.h:83-96 with the four numbers drawn; the logarithm of 0 is not a number here *)
Definition RandGaussVec3 (a0 a1 a2 a3 : R) : option vec3 :=
  if ltR 0 a0 && ltR 0 a2 then Some (V3 (sqrt (-2 * ln a0) * cos (PI * 2 * a1)) (sqrt (-2 * ln a0) * sin (PI * 2 * a1)) (sqrt (-2 * ln a2) * cos (PI * 2 * a3))) else None.
(** sampling.h:98-103 *)
Definition SampleTent (Xi : seed) : seed * R :=
  let '(Xi, u) := MyERand48 Xi in
  let r1 := 2 * u in
  (Xi, if ltR r1 1 then sqrt r1 - 1 else 1 - sqrt (2 - r1)).
(** sampling.h:105-113, with clamp between reals: as written, between a double and ints, it does not compile *)
Definition SampleHemisphereZupUniform (v2 : R * R) : vec3 :=
  let z := fst v2 in let r := sqrt (clampR (1 - z * z) 0 1) in let phi := 2 * PI * snd v2 in V3 (r * cos phi) (r * sin phi) z.
(** sampling.h:115-123 *)
Definition SampleHemisphereZupCos (v2 : R * R) : vec3 :=
  let z := sqrt (fst v2) in let r := sqrt (1 - z * z) in let phi := 2 * PI * snd v2 in V3 (r * cos phi) (r * sin phi) z.
(** sampling.h:125-134 *)
Definition SampleHemisphereNormalCos (n : vec3) (v2 : R * R) : option vec3 :=
  let h0 := SampleHemisphereZupCos v2 in
  u <- normalized (cross3 (if ltR (1 / 10) (Rabs (vx n)) then V3 0 1 0 else V3 1 0 0) n) ;;
  let v := cross3 n u in
  normalized (add3 (add3 (mul3 (vx h0) u) (mul3 (vy h0) v)) (mul3 (vz h0) n)).
