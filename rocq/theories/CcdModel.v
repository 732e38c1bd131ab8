(** Model of the times of contact of /repo/include/delfem2/geo_ccd.cpp.

    Numbers are reals; a failed assertion is None.  The answer of FindCoplanerInterp is Some None when it answers false and Some (Some r) when it answers true with r. *)
From Coq Require Import List Arith Bool Reals.
Import ListNotations.
From Verif Require Import Imp PrModel QuatModel ProxModel.
Open Scope R_scope.

(** vec3_funcs.h:118-127 *)
Definition ScalarTripleProduct (a b c : vec3) : R :=
  vx a * (vy b * vz c - vz b * vy c) + vy a * (vz b * vx c - vx b * vz c) + vz a * (vx b * vy c - vy b * vx c).
(** geo_ccd.cpp:29-35 *)
Definition EvaluateCubic (x k0 k1 k2 k3 : R) : R := k0 + k1 * x + k2 * x * x + k3 * x * x * x.
(** geo_ccd.cpp:53-64: the loop, with the number of steps left *)
Fixpoint bisect_loop (n : nat) (r0 r1 v0 v1 k0 k1 k2 k3 : R) : R :=
  match n with
  | O => 1 / 2 * (r0 + r1)
  | S n =>
      let r2 := 1 / 2 * (r0 + r1) in
      let v2 := EvaluateCubic r2 k0 k1 k2 k3 in
      if eqR v2 0 then r2 else
      if ltR (v0 * v2) 0 then bisect_loop n r0 r2 v0 v2 k0 k1 k2 k3 else bisect_loop n r2 r1 v2 v1 k0 k1 k2 k3
  end.
(** geo_ccd.cpp:43-66 *)
Definition FindRootCubic_Bisect (r0 r1 v0 v1 k0 k1 k2 k3 : R) : option R :=
  assertb (negb (ltR 0 (v0 * v1))) ;;;
  if eqR (v0 * v1) 0 then (if eqR v0 0 then Some r0 else Some r1) else
  Some (bisect_loop 15 r0 r1 v0 v1 k0 k1 k2 k3).
(** geo_ccd.cpp:222-251: the extreme values of a cubic function *)
Definition try_cubic (f0 k0 k1 k2 k3 : R) : option (option R) :=
  let det := k2 * k2 - 3 * k1 * k3 in
  if ltR det 0 then Some None else
  let try := fun r3 (next : option (option R)) =>
    if ltR 0 r3 && ltR r3 1 then
      let f3 := EvaluateCubic r3 k0 k1 k2 k3 in
      if eqR f3 0 then Some (Some r3) else
      if ltR (f0 * f3) 0 then (r <- FindRootCubic_Bisect 0 r3 f0 f3 k0 k1 k2 k3 ;; Some (Some r)) else next
    else next in
  try ((- k2 - sqrt det) / (3 * k3)) (try ((- k2 + sqrt det) / (3 * k3)) (Some None)).
(** geo_ccd.cpp:253-265 *)
Definition try_quadric (f0 k0 k1 k2 k3 : R) : option (option R) :=
  let r2 := - k1 / (2 * k2) in
  if ltR 0 r2 && ltR r2 1 then
    let f2 := EvaluateCubic r2 k0 k1 k2 k3 in
    if ltR (f0 * f2) 0 then (r <- FindRootCubic_Bisect 0 r2 f0 f2 k0 k1 k2 k3 ;; Some (Some r)) else Some None
  else Some None.
Definition e30 : R := / 10 ^ 30.
(** geo_ccd.cpp:190-267 *)
Definition FindCoplanerInterp (s0 s1 s2 s3 e0 e1 e2 e3 : vec3) : option (option R) :=
  let x1 := sub3 s1 s0 in let x2 := sub3 s2 s0 in let x3 := sub3 s3 s0 in
  let v1 := sub3 (sub3 e1 e0) x1 in let v2 := sub3 (sub3 e2 e0) x2 in let v3 := sub3 (sub3 e3 e0) x3 in
  let k0 := ScalarTripleProduct x3 x1 x2 in
  let k1 := ScalarTripleProduct v3 x1 x2 + ScalarTripleProduct x3 v1 x2 + ScalarTripleProduct x3 x1 v2 in
  let k2 := ScalarTripleProduct v3 v1 x2 + ScalarTripleProduct v3 x1 v2 + ScalarTripleProduct x3 v1 v2 in
  let k3 := ScalarTripleProduct v3 v1 v2 in
  let f0 := EvaluateCubic 0 k0 k1 k2 k3 in
  let f1 := EvaluateCubic 1 k0 k1 k2 k3 in
  if negb (ltR 0 (f0 * f1)) then (r <- FindRootCubic_Bisect 0 1 f0 f1 k0 k1 k2 k3 ;; Some (Some r)) else
  if ltR e30 (Rabs k3) then try_cubic f0 k0 k1 k2 k3 else
  if ltR e30 (Rabs k2) then try_quadric f0 k0 k1 k2 k3 else
  Some None.
