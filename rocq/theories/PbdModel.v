(** Model of the position based dynamics of /repo/include/delfem2/pbd_geo3.cpp, pbd_stvk.h and pbd_bending_for_dtri.cpp, with the 2x2 and 3x3 matrix
    functions they use.  Numbers are reals.  Reads and writes outside of an array, failed assertions and quotients by zero are None. *)
From Coq Require Import List Arith Bool Reals.
Import ListNotations.
From Verif Require Import Imp PrModel QuatModel ProxModel IsecModel MeasSpec EditModel DtriModel EnerModel.
Open Scope R_scope.

(** pbd_geo3.cpp:18-37 *)
Definition PBD_Post (aXYZ aUVW : list R) (dt : R) (aXYZt : list R) (aBCFlag : list nat) : option (list R * list R) :=
  let np := (length aXYZ / 3)%nat in
  assertb (length aBCFlag =? np)%nat ;;;
  assertb (length aXYZ =? np * 3)%nat ;;;
  assertb (length aUVW =? np * 3)%nat ;;;
  forn 0 np (fun ip st =>
    let '(x, u) := st in
    f <- vget aBCFlag ip ;;
    if negb (f =? 0)%nat then Some st else
    assertb (negb (eqR dt 0)) ;;;
    pt <- xyz aXYZt ip ;;
    p <- xyz x ip ;;
    u <- put3 u ip (V3 ((vx pt - vx p) / dt) ((vy pt - vy p) / dt) ((vz pt - vz p) / dt)) ;;
    x <- put3 x ip pt ;;
    Some (x, u)) (aXYZ, aUVW).
(** pbd_geo3.cpp:39-61; [old] is the content of aXYZt before the call *)
Definition PBD_Pre3D (old : list R) (dt : R) (gravity : vec3) (aXYZ aUVW : list R) (aBCFlag : list nat) : option (list R) :=
  let np := (length aXYZ / 3)%nat in
  assertb (length aBCFlag =? np)%nat ;;;
  assertb (length aUVW =? np * 3)%nat ;;;
  forn 0 np (fun ip t =>
    f <- vget aBCFlag ip ;;
    p <- xyz aXYZ ip ;;
    if negb (f =? 0)%nat then put3 t ip p else
    u <- xyz aUVW ip ;;
    put3 t ip (V3 (vx p + dt * vx u + dt * dt * vx gravity) (vy p + dt * vy u + dt * dt * vy gravity) (vz p + dt * vz u + dt * dt * vz gravity)))
    (vresize 0 old (np * 3)).

(** mat3_funcs.cpp:72-89; A[3 * i + j] is A i j *)
Definition Inverse_Mat3 (A : mat) : option mat :=
  let a := fun n => A (n / 3)%nat (n mod 3)%nat in
  let det := a 0%nat * a 4%nat * a 8%nat + a 3%nat * a 7%nat * a 2%nat + a 6%nat * a 1%nat * a 5%nat
             - a 0%nat * a 7%nat * a 5%nat - a 6%nat * a 4%nat * a 2%nat - a 3%nat * a 1%nat * a 8%nat in
  if eqR det 0 then None else
  let inv_det := 1 / det in
  Some (fun i j => nth (3 * i + j)
    [inv_det * (a 4%nat * a 8%nat - a 5%nat * a 7%nat); inv_det * (a 2%nat * a 7%nat - a 1%nat * a 8%nat); inv_det * (a 1%nat * a 5%nat - a 2%nat * a 4%nat);
     inv_det * (a 5%nat * a 6%nat - a 3%nat * a 8%nat); inv_det * (a 0%nat * a 8%nat - a 2%nat * a 6%nat); inv_det * (a 2%nat * a 3%nat - a 0%nat * a 5%nat);
     inv_det * (a 3%nat * a 7%nat - a 4%nat * a 6%nat); inv_det * (a 1%nat * a 6%nat - a 0%nat * a 7%nat); inv_det * (a 0%nat * a 4%nat - a 1%nat * a 3%nat)] 0).

(** pbd_geo3.cpp:63-109 for ndim = 3; dCdp[ic * np * 3 + ine * 3 + idim] is dCdp ic ine idim, and the loop of line 85-95 is a sum over ine and idim *)
Definition PBD_Update_Const3 (aXYZt : list R) (np : nat) (m : vec) (C : vec) (dCdp : nat -> conf) (aIP : list nat) (ratio : R) : option (list R) :=
  forn 0 np (fun ip _ => assertb (negb (eqR (m ip) 0))) tt ;;;
  let mi := fun ip => 1 / m ip in
  let MinvC := fun ic ine idim => dCdp ic ine idim * mi ine in
  let A := fun k l => sum np (fun ine => sum 3 (fun idim => MinvC k ine idim * dCdp l ine idim)) in
  Ainv <- Inverse_Mat3 A ;;
  let lmd := fun k => Ainv k 0%nat * C 0%nat + Ainv k 1%nat * C 1%nat + Ainv k 2%nat * C 2%nat in
  forn 0 np (fun ine a =>
    ip0 <- vget aIP ine ;;
    forn 0 3 (fun ic a =>
      forn 0 3 (fun idim a => vmod a (ip0 * 3 + idim) (fun x => x - ratio * MinvC ic ine idim * lmd ic)) a) a) aXYZt.

(** pbd_stvk.h:41-44, pbd_bending_for_dtri.cpp:17-32: positions of the corners; pbd_stvk.h:37-40, pbd_bending_for_dtri.cpp:54-58: rest positions, in the plane *)
Definition corner (a : list R) (aIP : list nat) : option conf :=
  ps <- foldM (fun ip l => p <- xyz a ip ;; Some (l ++ [[vx p; vy p; vz p]])) aIP [] ;;
  Some (fun i d => nth d (nth i ps []) 0).
Definition rest (vtx_xy : list (R * R)) (aIP : list nat) : option conf :=
  ps <- foldM (fun ip l => p <- vget vtx_xy ip ;; Some (l ++ [[fst p; snd p; 0]])) aIP [] ;;
  Some (fun i d => nth d (nth i ps []) 0).
(** pbd_stvk.h:34-51, one triangle *)
Definition TriStrain1 (vtx_xy : list (R * R)) (t : nat * nat * nat) (a : list R) : option (list R) :=
  let '(i0, i1, i2) := t in
  P <- rest vtx_xy [i0; i1; i2] ;;
  p <- corner a [i0; i1; i2] ;;
  PBD_Update_Const3 a 3 (fun _ => 1) (fst (CdC_StVK P p)) (snd (CdC_StVK P p)) [i0; i1; i2] 1.
(** pbd_stvk.h:27-53 *)
Definition PBD_TriStrain (aXYZt : list R) (tri_vtx : list (nat * nat * nat)) (vtx_xy : list (R * R)) : option (list R) :=
  foldM (TriStrain1 vtx_xy) tri_vtx aXYZt.

(** pbd_bending_for_dtri.cpp:54-67, one pair of triangles *)
Definition Bend1 (aVec2 : list (R * R)) (aIP : list nat) (ratio : R) (a : list R) : option (list R) :=
  P <- rest aVec2 aIP ;;
  p <- corner a aIP ;;
  PBD_Update_Const3 a 4 (fun _ => 1) (fst (CdC_QuadBend P p)) (snd (CdC_QuadBend P p)) aIP ratio.
(** pbd_bending_for_dtri.cpp:36-70 *)
Definition PBD_Bend (aXYZt : list R) (aETri : list dtri) (aVec2 : list (R * R)) (ratio : R) : option (list R) :=
  forn 0 (length aETri) (fun it a =>
    forn 0 3 (fun ie a =>
      t <- vget aETri it ;;
      l <- gs t ie ;;
      match l with
      | None => Some a
      | Some jt0 =>
        if (it <? jt0)%nat then Some a else
        je0 <- FindAdjEdgeIndex t ie aETri ;;
        tj <- vget aETri jt0 ;;
        lj <- gs tj je0 ;;
        assertb (onat_eq lj (Some it)) ;;;
        i0 <- gv t ie ;;
        i1 <- gv tj je0 ;;
        i2 <- gv t ((ie + 1) mod 3) ;;
        i3 <- gv t ((ie + 2) mod 3) ;;
        Bend1 aVec2 [i0; i1; i2; i3] ratio a
      end) a) aXYZt.

(** pbd_geo3.cpp:218-247, one line *)
Definition Seam1 (ip0 ip1 : nat) (a : list R) : option (list R) :=
  p0 <- xyz a ip0 ;;
  p1 <- xyz a ip1 ;;
  let d0 := Distance3 (fun d => nth d [vx p0; vy p0; vz p0] 0) (fun d => nth d [vx p1; vy p1; vz p1] 0) in
  let dLen := 1 / 100 in
  if ltR dLen d0 then
    let n01 := sub3 p1 p0 in
    let l01 := sqrt (vx n01 * vx n01 + vy n01 * vy n01 + vz n01 * vz n01) in
    let invl01 := 1 / l01 in
    let n01 := V3 (vx n01 * invl01) (vy n01 * invl01) (vz n01 * invl01) in
    a <- inc3 a ip0 (V3 (vx n01 * dLen * (1 / 2)) (vy n01 * dLen * (1 / 2)) (vz n01 * dLen * (1 / 2))) ;;
    inc3 a ip1 (V3 (- (vx n01 * dLen * (1 / 2))) (- (vy n01 * dLen * (1 / 2))) (- (vz n01 * dLen * (1 / 2))))
  else
    let mid := V3 ((vx p0 + vx p1) * (1 / 2)) ((vy p0 + vy p1) * (1 / 2)) ((vz p0 + vz p1) * (1 / 2)) in
    a <- put3 a ip0 mid ;;
    put3 a ip1 mid.
(** pbd_geo3.cpp:213-248 *)
Definition PBD_Seam (aXYZt : list R) (aLine : list (nat * nat)) : option (list R) :=
  foldM (fun l a => Seam1 (fst l) (snd l) a) aLine aXYZt.

(** mat2.cpp:78-85; A[2 * i + j] is the component 2 * i + j of a quadruple *)
Definition mat22 := (R * R * R * R)%type.
Definition gramian2 (A : mat22) : mat22 :=
  let '(a0, a1, a2, a3) := A in (a0 * a0 + a2 * a2, a0 * a1 + a2 * a3, a0 * a1 + a2 * a3, a1 * a1 + a3 * a3).
(** mat2.cpp:87-96 *)
Definition VLVt2 (l0 l1 : R) (V : mat22) : mat22 :=
  let '(v0, v1, v2, v3) := V in
  (l0 * v0 * v0 + l1 * v1 * v1, l0 * v2 * v0 + l1 * v3 * v1, l0 * v0 * v2 + l1 * v1 * v3, l0 * v2 * v2 + l1 * v3 * v3).
(** mat2.cpp:51-57 *)
Definition MatMat2 (A B : mat22) : mat22 :=
  let '(a0, a1, a2, a3) := A in let '(b0, b1, b2, b3) := B in
  (a0 * b0 + a1 * b2, a0 * b1 + a1 * b3, a2 * b0 + a3 * b2, a2 * b1 + a3 * b3).
Definition eps20 : R := / 100000000000000000000.
(** mat2.cpp:13-29, 138-143: normalised if longer than the tolerance *)
Definition normal2 (x y : R) : R * R :=
  if ltR eps20 (x * x + y * y) then let invlen := 1 / sqrt (x * x + y * y) in (x * invlen, y * invlen) else (x, y).
(** mat2.cpp:98-154 *)
Definition RotationalComponentOfMatrix2 (M : mat22) : mat22 :=
  let '(m0, m1, m2, m3) := M in
  let s := Rabs m0 + Rabs m1 + Rabs m2 + Rabs m3 in
  if ltR s (/ 10000000000) then (1, 0, 0, 1) else
  let invs := 1 / s in
  let A := (invs * m0, invs * m1, invs * m2, invs * m3) in
  let '(g0, g1, g2, g3) := gramian2 A in
  let b := g0 + g3 in
  let c := g0 * g3 - g1 * g2 in
  let d := b * b - 4 * c in
  let '(l0, l1, v0, v1) :=
    if ltR d eps20 then (1 / 2 * b, 1 / 2 * b, (0, 1), (1, 0)) else
    let d := sqrt d in
    let l0 := 1 / 2 * (b + d) in
    let l1 := 1 / 2 * (b - d) in
    (l0, l1, normal2 g1 (g3 - l1), normal2 (g0 - l0) g2) in
  let V := (fst v0, fst v1, snd v0, snd v1) in
  let l0 := if ltR l0 eps20 then 1 else l0 in
  let l1 := if ltR l1 eps20 then 1 else l1 in
  let il0 := 1 / sqrt l0 in
  let il1 := 1 / sqrt l1 in
  MatMat2 A (VLVt2 il0 il1 V).

(** Point ip of an array with two coordinates per point *)
Definition xy (a : list R) (ip : nat) : option (R * R) := x <- vget a (ip * 2 + 0) ;; y <- vget a (ip * 2 + 1) ;; Some (x, y).
(** pbd_geo3.cpp:174-207, one cluster; [ips] are clstr[clstr_ind[iclstr]] to clstr[clstr_ind[iclstr + 1] - 1]; Mat2Vec of vec2.cpp:249-254 *)
Definition Rigid2D1 (stiffness : R) (ips : list nat) (aXY0 : list R) (nXY0 : nat) (aXYt : list R) : option (list R) :=
  '(qc, pc) <- foldM (fun ip st =>
    let '(qc, pc) := st in
    assertb (ip <? nXY0)%nat ;;;
    q <- xy aXY0 ip ;;
    p <- xy aXYt ip ;;
    Some ((fst qc + fst q, snd qc + snd q), (fst pc + fst p, snd pc + snd p))) ips ((0, 0), (0, 0)) ;;
  let n := INR (length ips) in
  let qc := (fst qc / n, snd qc / n) in
  let pc := (fst pc / n, snd pc / n) in
  A <- foldM (fun ip A =>
    let '(a0, a1, a2, a3) := A in
    q <- xy aXY0 ip ;;
    p <- xy aXYt ip ;;
    let dq := (fst q - fst qc, snd q - snd qc) in
    let dp := (fst p - fst pc, snd p - snd pc) in
    Some (a0 + fst dp * fst dq, a1 + fst dp * snd dq, a2 + snd dp * fst dq, a3 + snd dp * snd dq)) ips (0, 0, 0, 0) ;;
  let '(r0, r1, r2, r3) := RotationalComponentOfMatrix2 A in
  foldM (fun ip a =>
    q <- xy aXY0 ip ;;
    p <- xy a ip ;;
    let dq := (fst q - fst qc, snd q - snd qc) in
    let pg := (fst pc + (r0 * fst dq + r1 * snd dq), snd pc + (r2 * fst dq + r3 * snd dq)) in
    a <- vset a (ip * 2 + 0) (stiffness * fst pg + (1 - stiffness) * fst p) ;;
    vset a (ip * 2 + 1) (stiffness * snd pg + (1 - stiffness) * snd p)) ips aXYt.
(** pbd_geo3.cpp:163-208; the clusters as lists of indices *)
Definition PBD_ConstProj_Rigid2D (aXYt : list R) (stiffness : R) (clusters : list (list nat)) (aXY0 : list R) (nXY0 : nat) : option (list R) :=
  foldM (fun ips a => Rigid2D1 stiffness ips aXY0 nXY0 a) clusters aXYt.
