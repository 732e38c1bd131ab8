(** Model of /repo/include/delfem2/gridvoxel.{h,cpp}: voxel meshes, dilation and erosion.  Integers do not overflow; coordinates are the integers the program pushes as doubles. *)
From Coq Require Import List Arith Bool ZArith.
Import ListNotations.
From Verif Require Import Imp.
Open Scope nat_scope.

(** gridvoxel.cpp:19-25 *)
Definition noelElemFace_Vox : list (list nat) := [[0; 4; 6; 2]; [1; 3; 7; 5]; [0; 1; 5; 4]; [2; 6; 7; 3]; [0; 2; 3; 1]; [4; 5; 7; 6]].
(** The triple loop of all the functions below. *)
Definition for3 {S} (n1 n2 n3 : nat) (body : nat -> nat -> nat -> S -> option S) (s : S) : option S :=
  forn 0 n1 (fun a s => forn 0 n2 (fun b s => forn 0 n3 (fun c s => body a b c s) s) s) s.

(** gridvoxel.cpp:39-44; the array aabb as a list. *)
Definition IsInclude_AABB (aabb : list Z) (x y z : Z) : option bool :=
  a0 <- vget aabb 0 ;; a1 <- vget aabb 1 ;; if ((x <? a0) || (a1 <=? x))%Z then Some false else
  a2 <- vget aabb 2 ;; a3 <- vget aabb 3 ;; if ((y <? a2) || (a3 <=? y))%Z then Some false else
  a4 <- vget aabb 4 ;; a5 <- vget aabb 5 ;; if ((z <? a4) || (a5 <=? z))%Z then Some false else Some true.
(** gridvoxel.cpp:46-68 *)
Definition Add_AABB (aabb : list Z) (x y z : Z) : option (list Z) :=
  a0 <- vget aabb 0 ;; a1 <- vget aabb 1 ;;
  if (a1 <? a0)%Z then
    aabb <- vset aabb 0 (x + 0)%Z ;; aabb <- vset aabb 1 (x + 1)%Z ;; aabb <- vset aabb 2 (y + 0)%Z ;; aabb <- vset aabb 3 (y + 1)%Z ;; aabb <- vset aabb 4 (z + 0)%Z ;; vset aabb 5 (z + 1)%Z
  else
    let lower aabb i v := a <- vget aabb i ;; if (v <? a)%Z then vset aabb i v else Some aabb in
    let upper aabb i v := a <- vget aabb i ;; if (a <? v)%Z then vset aabb i v else Some aabb in
    aabb <- lower aabb 0 (x + 0)%Z ;; aabb <- upper aabb 1 (x + 1)%Z ;; aabb <- lower aabb 2 (y + 0)%Z ;; aabb <- upper aabb 3 (y + 1)%Z ;; aabb <- lower aabb 4 (z + 0)%Z ;; upper aabb 5 (z + 1)%Z.

(** gridvoxel.cpp:273-291; division by zero is None. *)
Definition Adj_Grid (igridvox : Z) (iface : nat) (ndivx ndivy ndivz : Z) : option Z :=
  (assertb (negb (ndivy * ndivz =? 0)) ;;;
  let ivx0 := Z.quot igridvox (ndivy * ndivz) in
  assertb (negb (ndivz =? 0)) ;;;
  let ivy0 := Z.quot (igridvox - ivx0 * (ndivy * ndivz)) ndivz in
  let ivz0 := igridvox - ivx0 * (ndivy * ndivz) - ivy0 * ndivz in
  let ivx0 := if (iface =? 0)%nat then ivx0 - 1 else ivx0 in
  let ivx0 := if (iface =? 1)%nat then ivx0 + 1 else ivx0 in
  let ivy0 := if (iface =? 2)%nat then ivy0 - 1 else ivy0 in
  let ivy0 := if (iface =? 3)%nat then ivy0 + 1 else ivy0 in
  let ivz0 := if (iface =? 4)%nat then ivz0 - 1 else ivz0 in
  let ivz0 := if (iface =? 5)%nat then ivz0 + 1 else ivz0 in
  if (ivx0 <? 0) || (ndivx <=? ivx0) then Some (-1) else
  if (ivy0 <? 0) || (ndivy <=? ivy0) then Some (-1) else
  if (ivz0 <? 0) || (ndivz <=? ivz0) then Some (-1) else
  let igv1 := ivx0 * (ndivy * ndivz) + ivy0 * ndivz + ivz0 in
  assertb ((0 <=? igv1) && (igv1 <? ndivx * ndivy * ndivz)) ;;;
  Some igv1)%Z.

(** gridvoxel.cpp:83-94, 148-160, 206-218: the points. *)
Definition GridPoints (mdivx mdivy mdivz : nat) : option (list nat) := for3 mdivx mdivy mdivz (fun x y z p => Some (p ++ [x; y; z])) [].
(** gridvoxel.cpp:103-113: the points of a voxel. *)
Definition aIGP_Vox (my mz x y z : nat) : list nat :=
  [(x + 0) * (my * mz) + (y + 0) * mz + (z + 0);
   (x + 1) * (my * mz) + (y + 0) * mz + (z + 0);
   (x + 0) * (my * mz) + (y + 1) * mz + (z + 0);
   (x + 1) * (my * mz) + (y + 1) * mz + (z + 0);
   (x + 0) * (my * mz) + (y + 0) * mz + (z + 1);
   (x + 1) * (my * mz) + (y + 0) * mz + (z + 1);
   (x + 0) * (my * mz) + (y + 1) * mz + (z + 1);
   (x + 1) * (my * mz) + (y + 1) * mz + (z + 1)].
(** gridvoxel.cpp:70-134 *)
Definition MeshQuad3D_VoxelGrid (ndivx ndivy ndivz : nat) (aIsVox : list Z) : option (list nat * list nat) :=
  let mdivx := ndivx + 1 in let mdivy := ndivy + 1 in let mdivz := ndivz + 1 in
  aXYZ <- GridPoints mdivx mdivy mdivz ;;
  assertb (length aIsVox =? ndivx * ndivy * ndivz) ;;;
  aQuad <- for3 ndivx ndivy ndivz (fun x y z aQuad =>
    let ivoxel := x * (ndivy * ndivz) + y * ndivz + z in
    v <- vget aIsVox ivoxel ;;
    if (v =? 0)%Z then Some aQuad else
    let aIGP := aIGP_Vox mdivy mdivz x y z in
    forn 0 6 (fun iface aQuad =>
      jgv0 <- Adj_Grid (Z.of_nat ivoxel) iface (Z.of_nat ndivx) (Z.of_nat ndivy) (Z.of_nat ndivz) ;;
      hidden <- (if (0 <=? jgv0)%Z then w <- vget aIsVox (Z.to_nat jgv0) ;; Some (w =? 1)%Z else Some false) ;;
      if hidden : bool then Some aQuad else
      f <- vget noelElemFace_Vox iface ;;
      i0 <- vget f 0 ;; i1 <- vget f 1 ;; i2 <- vget f 2 ;; i3 <- vget f 3 ;;
      p0 <- vget aIGP i0 ;; p1 <- vget aIGP i1 ;; p2 <- vget aIGP i2 ;; p3 <- vget aIGP i3 ;;
      Some (aQuad ++ [p0; p1; p2; p3])) aQuad) [] ;;
  Some (aXYZ, aQuad).
(** gridvoxel.cpp:170-180 and 228-238: the points of a hexahedron. *)
Definition aIGP_Hex (my mz x y z : nat) : list nat :=
  [(x + 0) * (my * mz) + (y + 0) * mz + (z + 0);
   (x + 1) * (my * mz) + (y + 0) * mz + (z + 0);
   (x + 1) * (my * mz) + (y + 1) * mz + (z + 0);
   (x + 0) * (my * mz) + (y + 1) * mz + (z + 0);
   (x + 0) * (my * mz) + (y + 0) * mz + (z + 1);
   (x + 1) * (my * mz) + (y + 0) * mz + (z + 1);
   (x + 1) * (my * mz) + (y + 1) * mz + (z + 1);
   (x + 0) * (my * mz) + (y + 1) * mz + (z + 1)].
(** gridvoxel.cpp:136-192 *)
Definition MeshHex3D_VoxelGrid (ndivx ndivy ndivz : nat) (aIsVox : list Z) : option (list nat * list nat) :=
  let mdivx := ndivx + 1 in let mdivy := ndivy + 1 in let mdivz := ndivz + 1 in
  aXYZ <- GridPoints mdivx mdivy mdivz ;;
  assertb (length aIsVox =? ndivx * ndivy * ndivz) ;;;
  aHex <- for3 ndivx ndivy ndivz (fun x y z aHex =>
    v <- vget aIsVox (x * (ndivy * ndivz) + y * ndivz + z) ;;
    if (v =? 0)%Z then Some aHex else
    let p := aIGP_Hex mdivy mdivz x y z in
    foldM (fun i aHex => a <- vget p i ;; Some (aHex ++ [a])) [0; 1; 2; 3; 4; 5; 6; 7] aHex) [] ;;
  Some (aXYZ, aHex).
(** gridvoxel.cpp:194-271 *)
Definition MeshTet3D_VoxelGrid (ndivx ndivy ndivz : nat) (aIsVox : list Z) : option (list nat * list nat) :=
  let mdivx := ndivx + 1 in let mdivy := ndivy + 1 in let mdivz := ndivz + 1 in
  aXYZ <- GridPoints mdivx mdivy mdivz ;;
  assertb (length aIsVox =? ndivx * ndivy * ndivz) ;;;
  aTet <- for3 ndivx ndivy ndivz (fun x y z aTet =>
    v <- vget aIsVox (x * (ndivy * ndivz) + y * ndivz + z) ;;
    if (v =? 0)%Z then Some aTet else
    let p := aIGP_Hex mdivy mdivz x y z in
    foldM (fun i aTet => a <- vget p i ;; Some (aTet ++ [a]))
      [0; 1; 2; 6;  0; 1; 6; 5;  0; 4; 5; 6;  0; 2; 3; 6;  0; 3; 7; 6;  0; 4; 6; 7] aTet) [] ;;
  Some (aXYZ, aTet).

(** gridvoxel.h:54-90 CGrid3: sizes and values (the affine matrix is not used here). *)
Record grid3 := Grid3 { ndivx : nat; ndivy : nat; ndivz : nat; aVal : list Z }.
(** gridvoxel.h:61-70 *)
Definition Initialize (nx ny nz : nat) (v : Z) : grid3 := Grid3 nx ny nz (repeat v (nx * ny * nz)).
(** gridvoxel.h:71-76; a negative argument becomes a large unsigned one. *)
Definition IsInclude (g : grid3) (ivx ivy ivz : nat) : bool :=
  if ndivx g <=? ivx then false else if ndivy g <=? ivy then false else if ndivz g <=? ivz then false else true.
(** gridvoxel.h:77-81 *)
Definition Set_ (g : grid3) (ivx ivy ivz : nat) (isVox : Z) : option grid3 :=
  if negb (IsInclude g ivx ivy ivz) then Some g else
  a <- vset (aVal g) (ivx * (ndivy g * ndivz g) + ivy * ndivz g + ivz) isVox ;; Some (Grid3 (ndivx g) (ndivy g) (ndivz g) a).

(** gridvoxel.cpp:303-308, 335-340: the values at the six neighbours, 0 outside. *)
Definition flags (nx ny nz : nat) (a : list Z) (ix1 iy1 iz1 : nat) : option (list Z) :=
  let get i := vget a i in
  x0 <- (if 1 <=? ix1 then get (iz1 * ny * nx + iy1 * nx + (ix1 - 1)) else Some 0%Z) ;;
  x2 <- (if ix1 + 1 <? nx then get (iz1 * ny * nx + iy1 * nx + (ix1 + 1)) else Some 0%Z) ;;
  y0 <- (if 1 <=? iy1 then get (iz1 * ny * nx + (iy1 - 1) * nx + ix1) else Some 0%Z) ;;
  y2 <- (if iy1 + 1 <? ny then get (iz1 * ny * nx + (iy1 + 1) * nx + ix1) else Some 0%Z) ;;
  z0 <- (if 1 <=? iz1 then get ((iz1 - 1) * ny * nx + iy1 * nx + ix1) else Some 0%Z) ;;
  z2 <- (if iz1 + 1 <? nz then get ((iz1 + 1) * ny * nx + iy1 * nx + ix1) else Some 0%Z) ;;
  Some [x0; x2; y0; y2; z0; z2].
(** gridvoxel.cpp:296-326 *)
Definition Grid3Voxel_Dilation (g : grid3) : option grid3 :=
  let nx := ndivx g in let ny := ndivy g in let nz := ndivz g in
  a <- for3 nz ny nx (fun iz1 iy1 ix1 a =>
    fl <- flags nx ny nz a ix1 iy1 iz1 ;;
    let ivox := iz1 * ny * nx + iy1 * nx + ix1 in
    v <- vget a ivox ;;
    if negb (v =? 0)%Z then Some a else
    foldM (fun f a => if (f =? 1)%Z then vset a ivox 2%Z else Some a) fl a) (aVal g) ;;
  a <- forn 0 (nx * ny * nz) (fun ivox a => v <- vget a ivox ;; if (v =? 0)%Z then Some a else vset a ivox 1%Z) a ;;
  Some (Grid3 nx ny nz a).
(** gridvoxel.cpp:328-358 *)
Definition Grid3Voxel_Erosion (g : grid3) : option grid3 :=
  let nx := ndivx g in let ny := ndivy g in let nz := ndivz g in
  a <- for3 nz ny nx (fun iz1 iy1 ix1 a =>
    fl <- flags nx ny nz a ix1 iy1 iz1 ;;
    let ivox := iz1 * ny * nx + iy1 * nx + ix1 in
    v <- vget a ivox ;;
    if (v =? 0)%Z then Some a else
    foldM (fun f a => if (f =? 0)%Z then vset a ivox 2%Z else Some a) fl a) (aVal g) ;;
  a <- forn 0 (nx * ny * nz) (fun ivox a => v <- vget a ivox ;; if negb (v =? 2)%Z then Some a else vset a ivox 0%Z) a ;;
  Some (Grid3 nx ny nz a).
