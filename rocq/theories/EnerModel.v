(** Model of the elastic energies and constraints, with their first and second derivatives, in /repo/include/delfem2/fem_distance3.cpp, fem_rod2.cpp,
    fem_rod3_straight.cpp, fem_quadratic_bending.cpp, fem_discreteshell.cpp, fem_stvk.cpp and fem_mips.cpp.
    Numbers are reals.  Arrays of fixed sizes are functions of their indices.  A quotient by zero is inf or NaN in the code and some real here: the
    theorems are about cases in which no divisor is zero. *)
From Coq Require Import List Arith Bool Reals.
Import ListNotations.
From Verif Require Import PrModel.
Open Scope R_scope.

Definition vec := nat -> R.
Definition mat := nat -> nat -> R.
(** p[ip][idim], dW[ip][idim] and ddW[ip][jp][idim][jdim] *)
Definition conf := nat -> nat -> R.
Definition hess := nat -> nat -> nat -> nat -> R.

(** vec3.h:83-97, 275-280 *)
Definition vsub (a b : vec) : vec := fun d => a d - b d.
Definition vplus (a b : vec) : vec := fun d => a d + b d.
Definition vmul (s : R) (a : vec) : vec := fun d => s * a d.
(** vec3.h:261 *)
Definition NEARLY_ZERO : R := / 10000000000000000.
(** vec3.h:111-115, a component of a vector divided by a number: zero if the number is too small *)
Definition sdiv (x d : R) : R := if ltR (Rabs d) NEARLY_ZERO then 0 else x / d.
(** vec3.h:103-109, the same in place: unchanged if the number is too small *)
Definition sdivi (x d : R) : R := if ltR (Rabs d) NEARLY_ZERO then x else x / d.
(** vec3_funcs.h:30-50 and the members dot, cross and norm of vec3.h:140-215 *)
Definition Dot3 (a b : vec) : R := a 0%nat * b 0%nat + a 1%nat * b 1%nat + a 2%nat * b 2%nat.
Definition Cross (a b : vec) : vec := fun d => nth d [a 1%nat * b 2%nat - a 2%nat * b 1%nat; a 2%nat * b 0%nat - a 0%nat * b 2%nat; a 0%nat * b 1%nat - a 1%nat * b 0%nat] 0.
Definition Length3 (a : vec) : R := sqrt (a 0%nat * a 0%nat + a 1%nat * a 1%nat + a 2%nat * a 2%nat).
Definition Distance3 (p0 p1 : vec) : R := Length3 (vsub p1 p0).
(** vec2.cpp:76-81 *)
Definition Distance2 (v1 v2 : vec) : R := sqrt ((v1 0%nat - v2 0%nat) * (v1 0%nat - v2 0%nat) + (v1 1%nat - v2 1%nat) * (v1 1%nat - v2 1%nat)).
(** geo_tri.h:101-110 *)
Definition Area_Tri3 (v1 v2 v3 : vec) : R :=
  let x := (v2 1%nat - v1 1%nat) * (v3 2%nat - v1 2%nat) - (v3 1%nat - v1 1%nat) * (v2 2%nat - v1 2%nat) in
  let y := (v2 2%nat - v1 2%nat) * (v3 0%nat - v1 0%nat) - (v3 2%nat - v1 2%nat) * (v2 0%nat - v1 0%nat) in
  let z := (v2 0%nat - v1 0%nat) * (v3 1%nat - v1 1%nat) - (v3 0%nat - v1 0%nat) * (v2 1%nat - v1 1%nat) in
  sqrt (x * x + y * y + z * z) / 2.
(** geo_tri.cpp:426-452: the unit normal and the area *)
Definition UnitNormalAreaTri3 (v1 v2 v3 : vec) : vec * R :=
  let n := Cross (vsub v2 v1) (vsub v3 v1) in
  let a := Length3 n / 2 in
  let invlen := 1 / (a * 2) in
  ((fun d => n d * invlen), a).
(** mat3.h:110-130, 190-202, 252-274, 339-376, mat3.cpp:44-48 *)
Definition ident (s : R) : mat := fun i j => if (i =? j)%nat then s else 0.
Definition op (v0 v1 : vec) : mat := fun i j => v0 i * v1 j.
Definition Skew (v : vec) : mat := fun i j => nth j (nth i [[0; - v 2%nat; v 1%nat]; [v 2%nat; 0; - v 0%nat]; [- v 1%nat; v 0%nat; 0]] []) 0.
Definition madd (A B : mat) : mat := fun i j => A i j + B i j.
Definition msub (A B : mat) : mat := fun i j => A i j - B i j.
Definition mscale (A : mat) (s : R) : mat := fun i j => A i j * s.
Definition mneg (A : mat) : mat := fun i j => A i j * -1.
Definition mdiv (A : mat) (s : R) : mat := fun i j => A i j * (1 / s).
Definition mtr (A : mat) : mat := fun i j => A j i.
Definition mmul (A B : mat) : mat := fun i j => A i 0%nat * B 0%nat j + A i 1%nat * B 1%nat j + A i 2%nat * B 2%nat j.
Definition vmat (v : vec) (m : mat) : vec := fun j => m 0%nat j * v 0%nat + m 1%nat j * v 1%nat + m 2%nat j * v 2%nat.

(** fem_distance3.cpp:19-42 *)
Definition WdWddW_SquareLengthLineseg3D (stiffness : R) (p : conf) (edge_length_ini : R) : R * conf * hess :=
  let l := sqrt ((p 0%nat 0%nat - p 1%nat 0%nat) * (p 0%nat 0%nat - p 1%nat 0%nat) + (p 0%nat 1%nat - p 1%nat 1%nat) * (p 0%nat 1%nat - p 1%nat 1%nat) +
                 (p 0%nat 2%nat - p 1%nat 2%nat) * (p 0%nat 2%nat - p 1%nat 2%nat)) in
  let v := vsub (p 0%nat) (p 1%nat) in
  let R := edge_length_ini - l in
  let dw := fun i => nth i [vmul (- R * stiffness / l) v; vmul (R * stiffness / l) v] (fun _ => 0) in
  let t0 := stiffness * edge_length_ini / (l * l * l) in
  let t1 := stiffness * (l - edge_length_ini) / l in
  let m := madd (mscale (op v v) t0) (mscale (ident 1) t1) in
  let ddw := fun i j => nth j (nth i [[m; mneg m]; [mneg m; m]] []) (fun _ _ => 0) in
  (1 / 2 * stiffness * R * R, dw, ddw).

(** fem_distance3.cpp:44-61 *)
Definition CdC_SquareLengthLineseg3D (p : conf) (length_ini : R) : R * conf :=
  let vx := p 0%nat 0%nat - p 1%nat 0%nat in
  let vy := p 0%nat 1%nat - p 1%nat 1%nat in
  let vz := p 0%nat 2%nat - p 1%nat 2%nat in
  let l := sqrt (vx * vx + vy * vy + vz * vz) in
  let dc0 := fun d => nth d [vx / l; vy / l; vz / l] 0 in
  (l - length_ini, fun i d => nth i [dc0 d; - dc0 d] 0).

(** fem_distance3.cpp:65-93: C[ic] and dCdp[ic][3 * ip + idim] *)
Definition CdC_LengthTriEdges23 (P p : conf) : vec * (nat -> conf) :=
  let L12 := Distance2 (P 1%nat) (P 2%nat) in
  let L20 := Distance2 (P 2%nat) (P 0%nat) in
  let L01 := Distance2 (P 0%nat) (P 1%nat) in
  let v12 := vsub (p 1%nat) (p 2%nat) in
  let v20 := vsub (p 2%nat) (p 0%nat) in
  let v01 := vsub (p 0%nat) (p 1%nat) in
  let l12 := Length3 v12 in
  let l20 := Length3 v20 in
  let l01 := Length3 v01 in
  let C := fun k => nth k [l12 - L12; l20 - L20; l01 - L01] 0 in
  let u12 := fun d => sdivi (v12 d) l12 in
  let u20 := fun d => sdivi (v20 d) l20 in
  let u01 := fun d => sdivi (v01 d) l01 in
  let dC := fun k i d => nth i (nth k [[0; u12 d; u12 d * -1]; [u20 d * -1; 0; u20 d]; [u01 d; u01 d * -1; 0]] []) 0 in
  (C, dC).

(** fem_distance3.cpp:103-153: C[ic] and dCdp[ic][3 * ip + idim] *)
Definition CdC_LengthTetEdges (P p : conf) : vec * (nat -> conf) :=
  let L01 := Distance3 (P 0%nat) (P 1%nat) in
  let L02 := Distance3 (P 0%nat) (P 2%nat) in
  let L03 := Distance3 (P 0%nat) (P 3%nat) in
  let L12 := Distance3 (P 1%nat) (P 2%nat) in
  let L13 := Distance3 (P 1%nat) (P 3%nat) in
  let L23 := Distance3 (P 2%nat) (P 3%nat) in
  let v01 := vsub (p 0%nat) (p 1%nat) in
  let v02 := vsub (p 0%nat) (p 2%nat) in
  let v03 := vsub (p 0%nat) (p 3%nat) in
  let v12 := vsub (p 1%nat) (p 2%nat) in
  let v13 := vsub (p 1%nat) (p 3%nat) in
  let v23 := vsub (p 2%nat) (p 3%nat) in
  let l01 := Length3 v01 in
  let l02 := Length3 v02 in
  let l03 := Length3 v03 in
  let l12 := Length3 v12 in
  let l13 := Length3 v13 in
  let l23 := Length3 v23 in
  let C := fun k => nth k [l01 - L01; l02 - L02; l03 - L03; l12 - L12; l13 - L13; l23 - L23] 0 in
  let u01 := fun d => sdivi (v01 d) l01 in
  let u02 := fun d => sdivi (v02 d) l02 in
  let u03 := fun d => sdivi (v03 d) l03 in
  let u12 := fun d => sdivi (v12 d) l12 in
  let u13 := fun d => sdivi (v13 d) l13 in
  let u23 := fun d => sdivi (v23 d) l23 in
  let dC := fun k i d => nth i (nth k
    [[u01 d; u01 d * -1; 0; 0]; [u02 d; 0; u02 d * -1; 0]; [u03 d; 0; 0; u03 d * -1];
     [0; u12 d; u12 d * -1; 0]; [0; u13 d; 0; u13 d * -1]; [0; 0; u23 d; u23 d * -1]] []) 0 in
  (C, dC).

(** fem_rod2.cpp:33-97: aT and dT from the lengths and directions of the two segments *)
Definition rod2_T (lF lG : R) (F G : vec) (aL : vec) : vec * (nat -> conf) :=
  let lFi := 1 / lF in
  let lGi := 1 / lG in
  let cFG := F 0%nat * G 0%nat + F 1%nat * G 1%nat in
  let sFG := F 0%nat * G 1%nat - F 1%nat * G 0%nat in
  let dF := fun k i d => nth d (nth i (nth k
    [[[- (1 - F 0%nat * F 0%nat) * lFi; F 0%nat * F 1%nat * lFi]; [(1 - F 0%nat * F 0%nat) * lFi; - F 0%nat * F 1%nat * lFi]; [0; 0]];
     [[F 1%nat * F 0%nat * lFi; - (1 - F 1%nat * F 1%nat) * lFi]; [- F 1%nat * F 0%nat * lFi; (1 - F 1%nat * F 1%nat) * lFi]; [0; 0]]] []) []) 0 in
  let dG := fun k i d => nth d (nth i (nth k
    [[[0; 0]; [- (1 - G 0%nat * G 0%nat) * lGi; G 0%nat * G 1%nat * lGi]; [(1 - G 0%nat * G 0%nat) * lGi; - G 0%nat * G 1%nat * lGi]];
     [[0; 0]; [G 0%nat * G 1%nat * lGi; - (1 - G 1%nat * G 1%nat) * lGi]; [- G 0%nat * G 1%nat * lGi; (1 - G 1%nat * G 1%nat) * lGi]]] []) []) 0 in
  let aT := fun k => nth k [lF - aL 0%nat; lG - aL 1%nat; sFG / (1 + cFG)] 0 in
  let dT2 := fun i d =>
    1 / (1 + cFG) * (dF 0%nat i d * G 1%nat + F 0%nat * dG 1%nat i d - dF 1%nat i d * G 0%nat - F 1%nat * dG 0%nat i d) -
    sFG / ((1 + cFG) * (1 + cFG)) * (dF 0%nat i d * G 0%nat + F 0%nat * dG 0%nat i d + dF 1%nat i d * G 1%nat + F 1%nat * dG 1%nat i d) in
  let dT := fun k i d => nth k [nth i [- F d; F d; 0] 0; nth i [0; - G d; G d] 0; dT2 i d] 0 in
  (aT, dT).
(** fem_rod2.cpp:13-131 *)
Definition WdWddW_Rod2 (ap : conf) (aL : vec) (stiff_stretch01 stiff_stretch12 stiff1_bend : R) : R * conf * hess :=
  let lF := Distance2 (ap 0%nat) (ap 1%nat) in
  let lG := Distance2 (ap 1%nat) (ap 2%nat) in
  let F := fun d => (ap 1%nat d - ap 0%nat d) * (1 / lF) in
  let G := fun d => (ap 2%nat d - ap 1%nat d) * (1 / lG) in
  let '(aT, dT) := rod2_T lF lG F G aL in
  let aWT := fun k => nth k [stiff_stretch01; stiff_stretch12; stiff1_bend] 0 in
  let sum3 := fun f : nat -> R => 0 + f 0%nat + f 1%nat + f 2%nat in
  (sum3 (fun k => 1 / 2 * aWT k * aT k * aT k),
   (fun i d => sum3 (fun k => aWT k * dT k i d * aT k)),
   (fun i j d e => sum3 (fun k => aWT k * dT k i d * dT k j e))).

(** fem_rod3_straight.cpp:29-44: the constraint and its derivative from the lengths and directions of the segments *)
Definition rod3_C (l0 l2 : R) (u0 u2 : vec) : vec * (nat -> conf) :=
  let du0dp0 := mdiv (mneg (msub (ident 1) (op u0 u0))) l0 in
  let du2dp2 := mdiv (msub (ident 1) (op u2 u2)) l2 in
  let cos0 := 1 + Dot3 u0 u2 in
  let tan0 := fun d => sdiv (Cross u0 u2 d) cos0 in
  let dtdu0 := mdiv (msub (mneg (Skew u2)) (op tan0 u2)) cos0 in
  let dtdu2 := mdiv (msub (Skew u0) (op tan0 u0)) cos0 in
  let dtdp0 := mmul dtdu0 du0dp0 in
  let dtdp2 := mmul dtdu2 du2dp2 in
  (tan0, fun k i d => nth i [dtdp0 k d; - dtdp0 k d - dtdp2 k d; dtdp2 k d] 0).
(** fem_rod3_straight.cpp:14-45 *)
Definition CdC_Rod3BendStraight (p : conf) : vec * (nat -> conf) :=
  let v0 := vsub (p 1%nat) (p 0%nat) in
  let v1 := vsub (p 2%nat) (p 1%nat) in
  let l0 := Length3 v0 in
  let l2 := Length3 v1 in
  rod3_C l0 l2 (fun d => sdiv (v0 d) l0) (fun d => sdiv (v1 d) l2).

(** fem_rod3_straight.cpp:68-128: given c and t of lines 70 and 71 *)
Definition rod3_ddW (l0 l2 c : R) (u0 u2 t : vec) : R * conf * hess :=
  let du0 := mdiv (mneg (msub (ident 1) (op u0 u0))) l0 in
  let du2 := mdiv (msub (ident 1) (op u2 u2)) l2 in
  let w := 1 / 2 * Dot3 t t in
  let dtdu0 := mdiv (msub (mneg (Skew u2)) (op t u2)) c in
  let dtdu2 := mdiv (msub (Skew u0) (op t u0)) c in
  let dW0 := vmat (vmat t dtdu0) du0 in
  let dW2 := vmat (vmat t dtdu2) du2 in
  let dW1 := fun d => - (dW0 d + dW2 d) in
  let tddtddu0 := madd (madd (mdiv (mmul (mneg (Skew u2)) (op t u2)) (c * c)) (mdiv (mmul (op u2 t) (Skew u2)) (c * c)))
    (mdiv (mscale (mscale (op u2 u2) 2) (Dot3 t t)) (c * c)) in
  let x0 := vmat t dtdu0 in
  let xddu0 := mdiv (msub (msub (msub (mscale (mscale (op u0 u0) 3) (Dot3 u0 x0)) (op x0 u0)) (op u0 x0)) (mscale (ident 1) (Dot3 u0 x0))) (l0 * l0) in
  let ddW00 := madd (madd (mmul (mmul (mmul (mtr du0) (mtr dtdu0)) dtdu0) du0) (mmul (mmul (mtr du0) tddtddu0) du0)) xddu0 in
  let tddtdu2du0 := madd (madd (madd (msub (mdiv (mneg (Skew t)) c) (mscale (ident 1) (Dot3 t t / c))) (mdiv (mmul (Skew t) (op u2 u0)) (c * c)))
    (mdiv (mmul (op u2 u0) (Skew t)) (c * c))) (mdiv (mscale (mscale (op u2 u0) 2) (Dot3 t t)) (c * c)) in
  let ddW20 := madd (mmul (mmul (mmul (mtr du2) (mtr dtdu2)) dtdu0) du0) (mmul (mmul (mtr du2) (mtr tddtdu2du0)) du0) in
  let ddW02 := mtr ddW20 in
  let tddtddu2 := madd (msub (mdiv (mmul (Skew u0) (op t u0)) (c * c)) (mdiv (mmul (op u0 t) (Skew u0)) (c * c)))
    (mdiv (mscale (mscale (op u0 u0) 2) (Dot3 t t)) (c * c)) in
  let x2 := vmat t dtdu2 in
  let xddu2 := mdiv (msub (msub (msub (mscale (mscale (op u2 u2) 3) (Dot3 u2 x2)) (op x2 u2)) (op u2 x2)) (mscale (ident 1) (Dot3 u2 x2))) (l2 * l2) in
  let ddW22 := madd (madd (mmul (mmul (mmul (mtr du2) (mtr dtdu2)) dtdu2) du2) (mmul (mmul (mtr du2) tddtddu2) du2)) xddu2 in
  let ddW01 := mneg (madd ddW00 ddW02) in
  let ddW10 := mtr ddW01 in
  let ddW21 := mneg (madd ddW20 ddW22) in
  let ddW12 := mtr ddW21 in
  let ddW11 := mneg (madd ddW10 ddW12) in
  (w, (fun i => nth i [dW0; dW1; dW2] (fun _ => 0)),
   (fun i j => nth j (nth i [[ddW00; ddW01; ddW02]; [ddW10; ddW11; ddW12]; [ddW20; ddW21; ddW22]] []) (fun _ _ => 0))).
(** fem_rod3_straight.cpp:59-129 *)
Definition WdWddW_Rod3BendStraight (p : conf) : R * conf * hess :=
  let l0 := Length3 (vsub (p 1%nat) (p 0%nat)) in
  let l2 := Length3 (vsub (p 2%nat) (p 1%nat)) in
  let u0 := fun d => sdiv (p 1%nat d - p 0%nat d) l0 in
  let u2 := fun d => sdiv (p 2%nat d - p 1%nat d) l2 in
  let c := 1 + Dot3 u0 u2 in
  let t := fun d => sdiv (Cross u0 u2 d) c in
  rod3_ddW l0 l2 c u0 u2 t.

(** fem_quadratic_bending.cpp:16-29, 57-80: A0, A1, L and the four numbers K without the last factor *)
Definition bend_K (P : conf) : R * R * R * vec :=
  let A0 := Area_Tri3 (P 0%nat) (P 2%nat) (P 3%nat) in
  let A1 := Area_Tri3 (P 1%nat) (P 3%nat) (P 2%nat) in
  let L := Distance3 (P 2%nat) (P 3%nat) in
  let H0 := 2 * A0 / L in
  let H1 := 2 * A1 / L in
  let e23 := vsub (P 3%nat) (P 2%nat) in
  let e02 := vsub (P 2%nat) (P 0%nat) in
  let e03 := vsub (P 3%nat) (P 0%nat) in
  let e12 := vsub (P 2%nat) (P 1%nat) in
  let e13 := vsub (P 3%nat) (P 1%nat) in
  let cot023 := - Dot3 e02 e23 / H0 in
  let cot032 := Dot3 e03 e23 / H0 in
  let cot123 := - Dot3 e12 e23 / H1 in
  let cot132 := Dot3 e13 e23 / H1 in
  (A0, A1, L, fun i => nth i [- cot023 - cot032; - cot123 - cot132; cot032 + cot132; cot023 + cot123] 0).
(** fem_quadratic_bending.cpp:11-46 *)
Definition CdC_QuadBend (P p : conf) : vec * (nat -> conf) :=
  let '(A0, A1, L, K0) := bend_K P in
  let tmp0 := sqrt 3 / (sqrt (A0 + A1) * L) in
  let K := fun i => K0 i * tmp0 in
  ((fun k => K 0%nat * p 0%nat k + K 1%nat * p 1%nat k + K 2%nat * p 2%nat k + K 3%nat * p 3%nat k), (fun k i d => if (d =? k)%nat then K i else 0)).
(** fem_quadratic_bending.cpp:49-107; the loops of line 99-103 and 96-105 as sums *)
Definition WdWddW_Bend (C c : conf) (stiff : R) : R * conf * hess :=
  let '(A0, A1, L0, K) := bend_K C in
  let tmp0 := stiff / ((A0 + A1) * L0 * L0) in
  let ddW := fun i j d e => if (d =? e)%nat then K i * K j * tmp0 else 0 in
  let sum3 := fun f : nat -> R => f 0%nat + f 1%nat + f 2%nat in
  let sum4 := fun f : nat -> R => f 0%nat + f 1%nat + f 2%nat + f 3%nat in
  let dW := fun i d => sum4 (fun j => sum3 (fun e => ddW i j d e * c j e)) in
  (sum4 (fun i => sum3 (fun d => dW i d * c i d)), dW, ddW).

(** fem_discreteshell.cpp:23-45 *)
Definition CdC_DiscreteShell (p : conf) : R * conf :=
  let v02 := vsub (p 2%nat) (p 0%nat) in
  let v03 := vsub (p 3%nat) (p 0%nat) in
  let v12 := vsub (p 2%nat) (p 1%nat) in
  let v13 := vsub (p 3%nat) (p 1%nat) in
  let v23 := vsub (p 3%nat) (p 2%nat) in
  let A := Cross v02 v03 in
  let B := Cross v13 v12 in
  let lA := Length3 A in
  let lB := Length3 B in
  let a := fun d => sdiv (A d) lA in
  let b := fun d => sdiv (B d) lB in
  let ab := Dot3 a b in
  let sab := 1 in
  let tmpBA := fun d => (b d - a d * Dot3 a b) * (sab / lA) in
  let tmpAB := fun d => (a d - b d * Dot3 b a) * (sab / lB) in
  (ab - 1, fun i d => nth i [Cross tmpBA v23 d; Cross v23 tmpAB d; Cross v03 tmpBA d + Cross tmpAB v13 d; Cross tmpBA v02 d + Cross v12 tmpAB d] 0).

(** fem_stvk.cpp:23-32, 77-86: the area and the contravariant vectors of a rest triangle in the plane *)
Definition flat_rest (P : conf) : R * vec * vec * vec * vec :=
  let Gd0 := fun d => nth d [P 1%nat 0%nat - P 0%nat 0%nat; P 1%nat 1%nat - P 0%nat 1%nat; 0] 0 in
  let Gd1 := fun d => nth d [P 2%nat 0%nat - P 0%nat 0%nat; P 2%nat 1%nat - P 0%nat 1%nat; 0] 0 in
  let n := Cross Gd0 Gd1 in
  let Area := Length3 n * (1 / 2) in
  let Gd2 := fun d => sdivi (n d) (Area * 2) in
  let g0 := Cross Gd1 Gd2 in
  let Gu0 := fun d => sdivi (g0 d) (Dot3 g0 Gd0) in
  let g1 := Cross Gd2 Gd0 in
  let Gu1 := fun d => sdivi (g1 d) (Dot3 g1 Gd1) in
  (Area, Gd0, Gd1, Gu0, Gu1).
(** fem_stvk.cpp:37-40, 91-94, 298-301: E2 *)
Definition strain2 (Gd0 Gd1 gd0 gd1 : vec) : vec :=
  fun k => nth k [1 / 2 * (Dot3 gd0 gd0 - Dot3 Gd0 Gd0); 1 / 2 * (Dot3 gd1 gd1 - Dot3 Gd1 Gd1); 1 * (Dot3 gd0 gd1 - Dot3 Gd0 Gd1)] 0.
(** fem_stvk.cpp:18-68; dCdp[ic][3 * ip + idim] *)
Definition CdC_StVK (P p : conf) : vec * (nat -> conf) :=
  let '(Area, Gd0, Gd1, Gu0, Gu1) := flat_rest P in
  let gd0 := vsub (p 1%nat) (p 0%nat) in
  let gd1 := vsub (p 2%nat) (p 0%nat) in
  let E2 := strain2 Gd0 Gd1 gd0 gd1 in
  let xx := fun k => nth k [Gu0 0%nat * Gu0 0%nat; Gu1 0%nat * Gu1 0%nat; Gu0 0%nat * Gu1 0%nat] 0 in
  let yy := fun k => nth k [Gu0 1%nat * Gu0 1%nat; Gu1 1%nat * Gu1 1%nat; Gu0 1%nat * Gu1 1%nat] 0 in
  let xy := fun k => nth k [2 * Gu0 0%nat * Gu0 1%nat; 2 * Gu1 0%nat * Gu1 1%nat; Gu0 0%nat * Gu1 1%nat + Gu0 1%nat * Gu1 0%nat] 0 in
  let G := fun c => nth c [xx; yy; xy] (fun _ => 0) in
  ((fun c => E2 0%nat * G c 0%nat + E2 1%nat * G c 1%nat + E2 2%nat * G c 2%nat),
   (fun c i d => nth i [- (G c 0%nat + G c 2%nat) * gd0 d - (G c 1%nat + G c 2%nat) * gd1 d; G c 0%nat * gd0 d + G c 2%nat * gd1 d; G c 1%nat * gd1 d + G c 2%nat * gd0 d] 0)).
(** fem_stvk.cpp:123-133, 302-315: GuGu2 and Cons2 *)
Definition constit (Gu0 Gu1 : vec) (lambda myu : R) : mat :=
  let g := fun k => nth k [Dot3 Gu0 Gu0; Dot3 Gu1 Gu1; Dot3 Gu1 Gu0] 0 in
  fun i j => nth j (nth i
    [[lambda * g 0%nat * g 0%nat + 2 * myu * (g 0%nat * g 0%nat); lambda * g 0%nat * g 1%nat + 2 * myu * (g 2%nat * g 2%nat); lambda * g 0%nat * g 2%nat + 2 * myu * (g 0%nat * g 2%nat)];
     [lambda * g 1%nat * g 0%nat + 2 * myu * (g 2%nat * g 2%nat); lambda * g 1%nat * g 1%nat + 2 * myu * (g 1%nat * g 1%nat); lambda * g 1%nat * g 2%nat + 2 * myu * (g 2%nat * g 1%nat)];
     [lambda * g 2%nat * g 0%nat + 2 * myu * (g 0%nat * g 2%nat); lambda * g 2%nat * g 1%nat + 2 * myu * (g 2%nat * g 1%nat); lambda * g 2%nat * g 2%nat + 1 * myu * (g 0%nat * g 1%nat + g 2%nat * g 2%nat)]] []) 0.
(** fem_stvk.cpp:143, 325 *)
Definition dNdr : conf := fun i k => nth k (nth i [[-1; -1]; [1; 0]; [0; 1]] []) 0.
(** fem_stvk.cpp:134-154, 316-334: S2, the energy and its first derivative *)
Definition stvk_W (Area : R) (Cons2 : mat) (Gd0 Gd1 gd0 gd1 : vec) : vec * R * conf :=
  let E2 := strain2 Gd0 Gd1 gd0 gd1 in
  let S2 := fun k => Cons2 k 0%nat * E2 0%nat + Cons2 k 1%nat * E2 1%nat + Cons2 k 2%nat * E2 2%nat in
  (S2, 1 / 2 * Area * (E2 0%nat * S2 0%nat + E2 1%nat * S2 1%nat + E2 2%nat * S2 2%nat),
   fun i d => Area * (S2 0%nat * gd0 d * dNdr i 0%nat + S2 2%nat * gd0 d * dNdr i 1%nat + S2 2%nat * gd1 d * dNdr i 0%nat + S2 1%nat * gd1 d * dNdr i 1%nat)).
(** fem_stvk.cpp:70-155; dCdp[3 * ip + idim] *)
Definition CdC_EnergyStVK (P p : conf) (lambda myu : R) : R * conf :=
  let '(Area, Gd0, Gd1, Gu0, Gu1) := flat_rest P in
  let gd0 := vsub (p 1%nat) (p 0%nat) in
  let gd1 := vsub (p 2%nat) (p 0%nat) in
  let '(S2, C, dC) := stvk_W Area (constit Gu0 Gu1 lambda myu) Gd0 Gd1 gd0 gd1 in
  (C, dC).
(** fem_stvk.cpp:211-264 *)
Definition MakePositiveDefinite_Sim22 (s2 : vec) : vec :=
  let b := (s2 0%nat + s2 1%nat) * (1 / 2) in
  let d := (s2 0%nat - s2 1%nat) * (s2 0%nat - s2 1%nat) * (1 / 4) + s2 2%nat * s2 2%nat in
  let e := sqrt d in
  if ltR (/ 100000000000000000000) (b - e) then s2 else
  if ltR (b + e) 0 then (fun _ => 0) else
  let l := b + e in
  let t0 := (s2 0%nat - l, s2 2%nat) in
  let t1 := (s2 2%nat, s2 1%nat - l) in
  let sqlen_t0 := fst t0 * fst t0 + snd t0 * snd t0 in
  let sqlen_t1 := fst t1 * fst t1 + snd t1 * snd t1 in
  if ltR sqlen_t1 sqlen_t0 then
    if ltR sqlen_t0 (/ 100000000000000000000) then (fun _ => 0) else
    let inv := 1 / sqrt sqlen_t0 in
    let x := fst t0 * inv in let y := snd t0 * inv in
    fun k => nth k [l * x * x; l * y * y; l * x * y] 0
  else
    if ltR sqlen_t1 (/ 100000000000000000000) then (fun _ => 0) else
    let inv := 1 / sqrt sqlen_t1 in
    let x := fst t1 * inv in let y := snd t1 * inv in
    fun k => nth k [l * x * x; l * y * y; l * x * y] 0.
(** fem_stvk.cpp:339-374 *)
Definition stvk_ddW (Area : R) (Cons2 : mat) (S3 gd0 gd1 : vec) : hess :=
  fun i j d e =>
    let a := dNdr i 0%nat in let b := dNdr i 1%nat in let a' := dNdr j 0%nat in let b' := dNdr j 1%nat in
    let dtmp0 :=
      0 + gd0 d * a * Cons2 0%nat 0%nat * gd0 e * a' + gd0 d * a * Cons2 0%nat 1%nat * gd1 e * b' + gd0 d * a * Cons2 0%nat 2%nat * gd0 e * b' + gd0 d * a * Cons2 0%nat 2%nat * gd1 e * a'
      + gd1 d * b * Cons2 1%nat 0%nat * gd0 e * a' + gd1 d * b * Cons2 1%nat 1%nat * gd1 e * b' + gd1 d * b * Cons2 1%nat 2%nat * gd0 e * b' + gd1 d * b * Cons2 1%nat 2%nat * gd1 e * a'
      + gd0 d * b * Cons2 2%nat 0%nat * gd0 e * a' + gd0 d * b * Cons2 2%nat 1%nat * gd1 e * b' + gd0 d * b * Cons2 2%nat 2%nat * gd0 e * b' + gd0 d * b * Cons2 2%nat 2%nat * gd1 e * a'
      + gd1 d * a * Cons2 2%nat 0%nat * gd0 e * a' + gd1 d * a * Cons2 2%nat 1%nat * gd1 e * b' + gd1 d * a * Cons2 2%nat 2%nat * gd0 e * b' + gd1 d * a * Cons2 2%nat 2%nat * gd1 e * a' in
    let dtmp1 := Area * (S3 0%nat * a * a' + S3 2%nat * a * b' + S3 2%nat * b * a' + S3 1%nat * b * b') in
    dtmp0 * Area + (if (d =? e)%nat then dtmp1 else 0).
(** fem_stvk.cpp:277-292: Area and the contravariant vectors of a rest triangle in space *)
Definition space_rest (C : conf) : R * vec * vec * vec * vec :=
  let Gd0 := vsub (C 1%nat) (C 0%nat) in
  let Gd1 := vsub (C 2%nat) (C 0%nat) in
  let '(Gd2, Area) := UnitNormalAreaTri3 (C 0%nat) (C 1%nat) (C 2%nat) in
  let g0 := Cross Gd1 Gd2 in
  let Gu0 := fun d => g0 d * (1 / Dot3 g0 Gd0) in
  let g1 := Cross Gd2 Gd0 in
  let Gu1 := fun d => g1 d * (1 / Dot3 g1 Gd1) in
  (Area, Gd0, Gd1, Gu0, Gu1).
(** fem_stvk.cpp:267-376 *)
Definition WdWddW_CST (C c : conf) (lambda myu : R) : R * conf * hess :=
  let '(Area, Gd0, Gd1, Gu0, Gu1) := space_rest C in
  let gd0 := vsub (c 1%nat) (c 0%nat) in
  let gd1 := vsub (c 2%nat) (c 0%nat) in
  let Cons2 := constit Gu0 Gu1 lambda myu in
  let '(S2, W, dW) := stvk_W Area Cons2 Gd0 Gd1 gd0 gd1 in
  (W, dW, stvk_ddW Area Cons2 (MakePositiveDefinite_Sim22 S2) gd0 gd1).

(** fem_mips.cpp:43-58, 85-115: the values that depend on the rest triangle only, lA, lB, lC and Area *)
Definition mips_rest (C : conf) : R * R * R * R :=
  let sq := fun i j => Dot3 (vsub (C i) (C j)) (vsub (C i) (C j)) in
  (sq 1%nat 2%nat, sq 2%nat 0%nat, sq 0%nat 1%nat, Length3 (Cross (vsub (C 1%nat) (C 0%nat)) (vsub (C 2%nat) (C 0%nat))) * (1 / 2)).
(** fem_mips.cpp:44-131, given the rest values and the deformed area *)
Definition mips_E (lA lB lC Area area : R) (p : conf) : R * conf * hess :=
  let v01 := vsub (p 1%nat) (p 0%nat) in
  let v12 := vsub (p 2%nat) (p 1%nat) in
  let v20 := vsub (p 0%nat) (p 2%nat) in
  let la := Dot3 (vsub (p 1%nat) (p 2%nat)) (vsub (p 1%nat) (p 2%nat)) in
  let lb := Dot3 (vsub (p 2%nat) (p 0%nat)) (vsub (p 2%nat) (p 0%nat)) in
  let lc := Dot3 (vsub (p 0%nat) (p 1%nat)) (vsub (p 0%nat) (p 1%nat)) in
  let cot0 := - la + lb + lc in
  let cot1 := la - lb + lc in
  let cot2 := la + lb - lc in
  let tmp0 := 1 / (8 * Area) in
  let EC := (cot0 * lA + cot1 * lB + cot2 * lC) * tmp0 in
  let t00 := 4 * lA * tmp0 in
  let t11 := 4 * lB * tmp0 in
  let t22 := 4 * lC * tmp0 in
  let t01 := (- 2 * lA - 2 * lB + 2 * lC) * tmp0 in
  let t02 := (- 2 * lA + 2 * lB - 2 * lC) * tmp0 in
  let t12 := (2 * lA - 2 * lB - 2 * lC) * tmp0 in
  let T := fun i j => nth j (nth i [[t00; t01; t02]; [t01; t11; t12]; [t02; t12; t22]] []) 0 in
  let dEC := fun i d => T i 0%nat * p 0%nat d + T i 1%nat * p 1%nat d + T i 2%nat * p 2%nat d in
  let tmp1 := 1 / 4 / area in
  let dad := fun i d => nth i
    [(Dot3 v20 v12 * v01 d - Dot3 v01 v12 * v20 d) * tmp1; (Dot3 v01 v20 * v12 d - Dot3 v12 v20 * v01 d) * tmp1; (Dot3 v12 v01 * v20 d - Dot3 v20 v01 * v12 d) * tmp1] 0 in
  let dd := fun m i j => mscale (msub m (mscale (op (dad i) (dad j)) 4)) tmp1 in
  let ddad := fun i j => nth j (nth i
    [[dd (msub (ident (Dot3 v12 v12)) (op v12 v12)) 0%nat 0%nat;
      dd (msub (msub (ident (Dot3 v20 v12)) (op v20 (vsub v12 v01))) (op v01 v20)) 0%nat 1%nat;
      dd (msub (msub (ident (Dot3 v01 v12)) (op v01 (vsub v12 v20))) (op v20 v01)) 0%nat 2%nat];
     [dd (msub (msub (ident (Dot3 v12 v20)) (op v12 (vsub v20 v01))) (op v01 v12)) 1%nat 0%nat;
      dd (msub (ident (Dot3 v20 v20)) (op v20 v20)) 1%nat 1%nat;
      dd (msub (msub (ident (Dot3 v01 v20)) (op v01 (vsub v20 v12))) (op v12 v01)) 1%nat 2%nat];
     [dd (msub (msub (ident (Dot3 v12 v01)) (op v12 (vsub v01 v20))) (op v20 v12)) 2%nat 0%nat;
      dd (msub (msub (ident (Dot3 v20 v01)) (op v20 (vsub v01 v12))) (op v12 v20)) 2%nat 1%nat;
      dd (msub (ident (Dot3 v01 v01)) (op v01 v01)) 2%nat 2%nat]] []) (fun _ _ => 0) in
  let EA := Area / area + area / Area in
  let dEA := 1 / Area - Area / (area * area) in
  let ddEA := 2 * Area / (area * area * area) in
  let base := fun i j => madd (madd (mscale (ddad i j) (EC * dEA)) (mscale (op (dad i) (dad j)) (EC * ddEA))) (mscale (ident (T i j)) EA) in
  (EC * EA,
   (fun i d => EC * dEA * dad i d + EA * dEC i d),
   (fun i j => if (i =? j)%nat then madd (base i j) (mscale (mscale (op (dad i) (dEC j)) dEA) 2)
               else madd (madd (base i j) (mscale (op (dad i) (dEC j)) dEA)) (mscale (op (dad j) (dEC i)) dEA))).
(** fem_mips.cpp:15-131 *)
Definition WdWddW_MIPS (c C : conf) : R * conf * hess :=
  let '(lA, lB, lC, Area) := mips_rest C in
  let v01 := vsub (c 1%nat) (c 0%nat) in
  let v20 := vsub (c 0%nat) (c 2%nat) in
  mips_E lA lB lC Area (Length3 (Cross v01 v20) * (1 / 2)) c.
