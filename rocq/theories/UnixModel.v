(** Model of /repo/include/delfem2/msh_unindexed.h: meshes whose triangles do not share their data.

    Numbers are reals and integers without bounds.  A read or a write outside of an array is None.  The arrays that are written come with the contents they had before. *)
From Coq Require Import List Arith Reals.
Import ListNotations.
From Verif Require Import Imp QuatModel ProxModel.
Open Scope nat_scope.

(** std::vector::resize: cut, or filled with zeros *)
Definition resize0 (v : list R) (n : nat) : list R := firstn n v ++ repeat 0%R (n - length v).

(** the three writes at :24-26, :46-48 and :64-66 *)
Definition put3 (i : nat) (x y z : R) (o : list R) : option (list R) :=
  o <- vset o (i + 0) x ;; o <- vset o (i + 1) y ;; vset o (i + 2) z.

(** msh_unindexed.h:15-29 *)
Definition UnidexedVertexDataTriMesh (tri_xyz vtx_xyz : list R) (tri_vtx : list nat) : option (list R) :=
  let ntri := length tri_vtx / 3 in
  let tri_xyz := resize0 tri_xyz (ntri * 9) in
  forn 0 (length tri_vtx / 3) (fun it tri_xyz =>
    forn 0 3 (fun ino tri_xyz =>
      v <- vget tri_vtx (it * 3 + ino) ;;
      x <- vget vtx_xyz (v * 3 + 0) ;; y <- vget vtx_xyz (v * 3 + 1) ;; z <- vget vtx_xyz (v * 3 + 2) ;;
      put3 (it * 9 + ino * 3) x y z tri_xyz) tri_xyz) tri_xyz.

(** the three numbers at a pointer, msh_unindexed.h:40-42 *)
Definition point_at (vtx_xyz : list R) (v : nat) : option vec3 :=
  x <- vget vtx_xyz (v * 3 + 0) ;; y <- vget vtx_xyz (v * 3 + 1) ;; z <- vget vtx_xyz (v * 3 + 2) ;; Some (V3 x y z).
(** msh_unindexed.h:31-51; the normal of a flat triangle is NaN in the code *)
Definition UnindexedNormalTriMesh3 (tri_nrm vtx_xyz : list R) (tri_vtx : list nat) : option (list R) :=
  let ntri := length tri_vtx / 3 in
  let tri_nrm := resize0 tri_nrm (ntri * 9) in
  forn 0 (length tri_vtx / 3) (fun it tri_nrm =>
    v0 <- vget tri_vtx (it * 3 + 0) ;; v1 <- vget tri_vtx (it * 3 + 1) ;; v2 <- vget tri_vtx (it * 3 + 2) ;;
    p0 <- point_at vtx_xyz v0 ;; p1 <- point_at vtx_xyz v1 ;; p2 <- point_at vtx_xyz v2 ;;
    let n0 := fst (UnitNormalAreaTri3 p0 p1 p2) in
    forn 0 3 (fun ino tri_nrm => put3 (it * 9 + ino * 3) (vx n0) (vy n0) (vz n0) tri_nrm) tri_nrm) tri_nrm.

(** msh_unindexed.h:53-69; the colours are an array of three numbers each *)
Definition UnindexedColorTriMesh3 (tri_rgb : list R) (flg_rgb : list (R * R * R)) (tri_flg tri_vtx : list nat) : option (list R) :=
  let ntri := length tri_vtx / 3 in
  let tri_rgb := resize0 tri_rgb (ntri * 9) in
  forn 0 (length tri_vtx / 3) (fun it tri_rgb =>
    iflg <- vget tri_flg it ;;
    forn 0 3 (fun ino tri_rgb =>
      '(r, g, b) <- vget flg_rgb iflg ;;
      put3 (it * 9 + ino * 3) r g b tri_rgb) tri_rgb) tri_rgb.

(** msh_unindexed.h:71-86 *)
Definition UnindexedEdgeMesh3_UnindexedTrimesh3 (edge_xyz tri_xyz : list R) : option (list R) :=
  let ntri := length tri_xyz / 9 in
  let edge_xyz := resize0 edge_xyz (ntri * 18) in
  forn 0 ntri (fun itri edge_xyz =>
    forn 0 3 (fun i edge_xyz =>
      x0 <- vget tri_xyz (itri * 9 + 0 + i) ;;
      x3 <- vget tri_xyz (itri * 9 + 3 + i) ;;
      x6 <- vget tri_xyz (itri * 9 + 6 + i) ;;
      e <- vset edge_xyz (itri * 18 + 0 + i) x0 ;;
      e <- vset e (itri * 18 + 3 + i) x3 ;;
      e <- vset e (itri * 18 + 6 + i) x3 ;;
      e <- vset e (itri * 18 + 9 + i) x6 ;;
      e <- vset e (itri * 18 + 12 + i) x6 ;;
      vset e (itri * 18 + 15 + i) x0) edge_xyz) edge_xyz.
