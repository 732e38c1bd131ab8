(** Finite elements on triangle and tetrahedral meshes: femutil.cpp / femutil.h (areas, volumes, shape functions, consistent
    masses), fem_poisson.cpp / fem_poisson.h (Poisson and diffusion), fem_solidlinear.cpp / fem_solidlinear.h (linear solid).

    Simplifications.  [double] is the field of real numbers; the decimal literals 0.3333..., 0.1666..., 0.0833... that
    approximate 1/3, 1/6, 1/12 to more digits than a [double] holds are the fractions themselves (the nearest [double] is the same).
    Division by zero has the value Coq's library leaves unspecified: nothing is claimed for elements without area or volume.
    The fixed-size local arrays of an element (coords[3][2], dldx[4][3], emat[4][4][3][3], ...) are functions of their
    indices; the arrays of the caller (coordinates, connectivity, nodal values, right-hand side) and the matrix are
    bounds-checked lists and the block sparse matrix of SpModel. *)
From Coq Require Import List Arith Reals.
Import ListNotations.
From Verif Require Import Imp Alg SpModel.
Local Open Scope R_scope.

(** The ring of real numbers. *)
Definition Rcr : cring := mkRing R 0 1 Rplus Rmult Rminus Ropp RTheory.

(** T val[nno][ndim]; T emat[nno][nno][ndim][ndim]. *)
Definition vecf := nat -> nat -> R.
Definition matf := nat -> nat -> nat -> nat -> R.

(** for(j=0;j<n;++j){ x += f(j); }  /  x -= f(j) *)
Definition accR (n : nat) (f : nat -> R) (x : R) : R := fold_left (fun s j => s + f j) (seq 0 n) x.
Definition decR (n : nat) (f : nat -> R) (x : R) : R := fold_left (fun s j => s - f j) (seq 0 n) x.

(** ---- femutil ---- *)
(** femutil.cpp:16-21. *)
Definition TriArea2D (p0 p1 p2 : nat -> R) : R :=
  / 2 * ((p1 0%nat - p0 0%nat) * (p2 1%nat - p0 1%nat) - (p2 0%nat - p0 0%nat) * (p1 1%nat - p0 1%nat)).

(** femutil.cpp:177-197; the gradients dldx and the constant terms. *)
Definition TriDlDx (p0 p1 p2 : nat -> R) : vecf * (nat -> R) :=
  let area := TriArea2D p0 p1 p2 in
  let tmp1 := / 2 / area in
  (fun i k => match i, k with
     | 0%nat, 0%nat => tmp1 * (p1 1%nat - p2 1%nat) | 1%nat, 0%nat => tmp1 * (p2 1%nat - p0 1%nat) | 2%nat, 0%nat => tmp1 * (p0 1%nat - p1 1%nat)
     | 0%nat, 1%nat => tmp1 * (p2 0%nat - p1 0%nat) | 1%nat, 1%nat => tmp1 * (p0 0%nat - p2 0%nat) | 2%nat, 1%nat => tmp1 * (p1 0%nat - p0 0%nat)
     | _, _ => 0 end,
   fun i => match i with
     | 0%nat => tmp1 * (p1 0%nat * p2 1%nat - p2 0%nat * p1 1%nat) | 1%nat => tmp1 * (p2 0%nat * p0 1%nat - p0 0%nat * p2 1%nat)
     | 2%nat => tmp1 * (p0 0%nat * p1 1%nat - p1 0%nat * p0 1%nat) | _ => 0 end).

(** femutil.cpp:202-212. *)
Definition TetVolume3D (v1 v2 v3 v4 : nat -> R) : R :=
  ((v2 0%nat - v1 0%nat) * ((v3 1%nat - v1 1%nat) * (v4 2%nat - v1 2%nat) - (v4 1%nat - v1 1%nat) * (v3 2%nat - v1 2%nat))
   - (v2 1%nat - v1 1%nat) * ((v3 0%nat - v1 0%nat) * (v4 2%nat - v1 2%nat) - (v4 0%nat - v1 0%nat) * (v3 2%nat - v1 2%nat))
   + (v2 2%nat - v1 2%nat) * ((v3 0%nat - v1 0%nat) * (v4 1%nat - v1 1%nat) - (v4 0%nat - v1 0%nat) * (v3 1%nat - v1 1%nat))) * / 6.

(** femutil.cpp:215-258; the gradients dldx and the constant terms. *)
Definition TetDlDx (p0 p1 p2 p3 : nat -> R) : vecf * (nat -> R) :=
  let vol := TetVolume3D p0 p1 p2 p3 in
  let d := 1 / (vol * 6) in
  (fun i k => match i, k with
     | 0%nat, 0%nat => - d * ((p2 1%nat - p1 1%nat) * (p3 2%nat - p1 2%nat) - (p3 1%nat - p1 1%nat) * (p2 2%nat - p1 2%nat))
     | 0%nat, 1%nat =>   d * ((p2 0%nat - p1 0%nat) * (p3 2%nat - p1 2%nat) - (p3 0%nat - p1 0%nat) * (p2 2%nat - p1 2%nat))
     | 0%nat, 2%nat => - d * ((p2 0%nat - p1 0%nat) * (p3 1%nat - p1 1%nat) - (p3 0%nat - p1 0%nat) * (p2 1%nat - p1 1%nat))
     | 1%nat, 0%nat =>   d * ((p3 1%nat - p2 1%nat) * (p0 2%nat - p2 2%nat) - (p0 1%nat - p2 1%nat) * (p3 2%nat - p2 2%nat))
     | 1%nat, 1%nat => - d * ((p3 0%nat - p2 0%nat) * (p0 2%nat - p2 2%nat) - (p0 0%nat - p2 0%nat) * (p3 2%nat - p2 2%nat))
     | 1%nat, 2%nat =>   d * ((p3 0%nat - p2 0%nat) * (p0 1%nat - p2 1%nat) - (p0 0%nat - p2 0%nat) * (p3 1%nat - p2 1%nat))
     | 2%nat, 0%nat => - d * ((p0 1%nat - p3 1%nat) * (p1 2%nat - p3 2%nat) - (p1 1%nat - p3 1%nat) * (p0 2%nat - p3 2%nat))
     | 2%nat, 1%nat =>   d * ((p0 0%nat - p3 0%nat) * (p1 2%nat - p3 2%nat) - (p1 0%nat - p3 0%nat) * (p0 2%nat - p3 2%nat))
     | 2%nat, 2%nat => - d * ((p0 0%nat - p3 0%nat) * (p1 1%nat - p3 1%nat) - (p1 0%nat - p3 0%nat) * (p0 1%nat - p3 1%nat))
     | 3%nat, 0%nat =>   d * ((p1 1%nat - p0 1%nat) * (p2 2%nat - p0 2%nat) - (p2 1%nat - p0 1%nat) * (p1 2%nat - p0 2%nat))
     | 3%nat, 1%nat => - d * ((p1 0%nat - p0 0%nat) * (p2 2%nat - p0 2%nat) - (p2 0%nat - p0 0%nat) * (p1 2%nat - p0 2%nat))
     | 3%nat, 2%nat =>   d * ((p1 0%nat - p0 0%nat) * (p2 1%nat - p0 1%nat) - (p2 0%nat - p0 0%nat) * (p1 1%nat - p0 1%nat))
     | _, _ => 0 end,
   fun i => match i with
     | 0%nat =>   d * (p1 0%nat * (p2 1%nat * p3 2%nat - p3 1%nat * p2 2%nat) - p1 1%nat * (p2 0%nat * p3 2%nat - p3 0%nat * p2 2%nat) + p1 2%nat * (p2 0%nat * p3 1%nat - p3 0%nat * p2 1%nat))
     | 1%nat => - d * (p2 0%nat * (p3 1%nat * p0 2%nat - p0 1%nat * p3 2%nat) - p2 1%nat * (p3 0%nat * p0 2%nat - p0 0%nat * p3 2%nat) + p2 2%nat * (p3 0%nat * p0 1%nat - p0 0%nat * p3 1%nat))
     | 2%nat =>   d * (p3 0%nat * (p0 1%nat * p1 2%nat - p1 1%nat * p0 2%nat) - p3 1%nat * (p0 0%nat * p1 2%nat - p1 0%nat * p0 2%nat) + p3 2%nat * (p0 0%nat * p1 1%nat - p1 0%nat * p0 1%nat))
     | 3%nat => - d * (p0 0%nat * (p1 1%nat * p2 2%nat - p2 1%nat * p1 2%nat) - p0 1%nat * (p1 0%nat * p2 2%nat - p2 0%nat * p1 2%nat) + p0 2%nat * (p1 0%nat * p2 1%nat - p2 0%nat * p1 1%nat))
     | _ => 0 end).

(** femutil.h:182-197, FetchData<nno,ndim> with the default stride. *)
Fixpoint mapM {A B} (f : A -> option B) (l : list A) : option (list B) :=
  match l with [] => Some [] | x :: l => y <- f x ;; ys <- mapM f l ;; Some (y :: ys) end.
Definition FetchData (nno ndim : nat) (aIP : list nat) (val_from : list R) : option vecf :=
  l <- mapM (fun ino => ip <- vget aIP ino ;; mapM (fun idim => vget val_from (ip * ndim + idim)) (seq 0 ndim)) (seq 0 nno) ;;
  Some (fun ino idim => nth idim (nth ino l []) 0).
(** const unsigned int aIP[nno] = {aEl[iel*nno+0], ...}, as in fem_poisson.h:108-111 and its siblings. *)
Definition element (nno : nat) (aEl : list nat) (iel : nat) : option (list nat) :=
  mapM (fun ino => vget aEl (iel * nno + ino)) (seq 0 nno).

(** ---- fem_poisson: element matrices; result (eres, emat) ---- *)
(** fem_poisson.cpp:15-47. *)
Definition EMat_Poisson_Tri2D (alpha source : R) (coords : vecf) (value : nat -> R) : (nat -> R) * (nat -> nat -> R) :=
  let area := TriArea2D (coords 0%nat) (coords 1%nat) (coords 2%nat) in
  let '(dldx, _) := TriDlDx (coords 0%nat) (coords 1%nat) (coords 2%nat) in
  let emat := fun i j => alpha * area * (dldx i 0%nat * dldx j 0%nat + dldx i 1%nat * dldx j 1%nat) in
  (fun i => decR 3 (fun j => emat i j * value j) (source * area * / 3), emat).

(** fem_poisson.cpp:49-103. *)
Definition EMat_Diffusion_Tri2D (alpha source dt gamma rho : R) (coords : vecf) (value velo : nat -> R)
    : (nat -> R) * (nat -> nat -> R) :=
  let area := TriArea2D (coords 0%nat) (coords 1%nat) (coords 2%nat) in
  let '(dldx, _) := TriDlDx (coords 0%nat) (coords 1%nat) (coords 2%nat) in
  let eCmat := fun i j => alpha * area * (dldx i 0%nat * dldx j 0%nat + dldx i 1%nat * dldx j 1%nat) in
  let dtmp1 := rho * area * / 12 in
  let eMmat := fun i j : nat => if (i =? j)%nat then dtmp1 + dtmp1 else dtmp1 in
  let emat := fun i j => eMmat i j + gamma * dt * eCmat i j in
  (fun i => decR 3 (fun j => eCmat i j * (value j + dt * velo j) + eMmat i j * velo j) (source * area * / 3), emat).

(** fem_poisson.cpp:163-194. *)
Definition EMat_Poisson_Tet3D (alpha source : R) (coords : vecf) (value : nat -> R) : (nat -> R) * (nat -> nat -> R) :=
  let area := TetVolume3D (coords 0%nat) (coords 1%nat) (coords 2%nat) (coords 3%nat) in
  let '(dldx, _) := TetDlDx (coords 0%nat) (coords 1%nat) (coords 2%nat) (coords 3%nat) in
  let emat := fun i j => alpha * area * (dldx i 0%nat * dldx j 0%nat + dldx i 1%nat * dldx j 1%nat + dldx i 2%nat * dldx j 2%nat) in
  (fun i => decR 4 (fun j => emat i j * value j) (source * area * / 4), emat).

(** fem_poisson.cpp:196-249. *)
Definition EMat_Diffusion_Newmark_Tet3D (alpha source dt gamma rho : R) (coords : vecf) (value velo : nat -> R)
    : (nat -> R) * (nat -> nat -> R) :=
  let vol := TetVolume3D (coords 0%nat) (coords 1%nat) (coords 2%nat) (coords 3%nat) in
  let '(dldx, _) := TetDlDx (coords 0%nat) (coords 1%nat) (coords 2%nat) (coords 3%nat) in
  let eCmat := fun i j => alpha * vol * (dldx i 0%nat * dldx j 0%nat + dldx i 1%nat * dldx j 1%nat + dldx i 2%nat * dldx j 2%nat) in
  let dtmp1 := rho * vol * / 20 in
  let eMmat := fun i j : nat => if (i =? j)%nat then dtmp1 + dtmp1 else dtmp1 in
  let emat := fun i j => eMmat i j + gamma * dt * eCmat i j in
  (fun i => decR 4 (fun j => eCmat i j * (value j + dt * velo j) + eMmat i j * velo j) (source * vol * / 4), emat).

(** ---- assembly ---- *)
(** The element matrix in memory order, as it is handed to Merge. *)
Definition flat (nno ndim : nat) (emat : matf) : list R :=
  concat (map (fun i => concat (map (fun j => concat (map (fun a => map (emat i j a) (seq 0 ndim)) (seq 0 ndim))) (seq 0 nno))) (seq 0 nno)).

(** The loop shared by all the MergeLinSys functions: tmp_buffer(np,UINT_MAX); for each element fetch its corners, compute
    (eres,emat) with [elem], add eres to vec_b, merge emat into mat_A; the value returned by Merge is ignored.  With ndim = 1
    the index ip*1+0 is the ip of the scalar functions. *)
Definition assemble (nno ndim : nat)
    (mrg : matsp Rcr -> list nat -> list nat -> list R -> list (option nat) -> option (bool * (matsp Rcr * list (option nat))))
    (elem : list nat -> option (vecf * matf)) (np : nat) (aEl : list nat) (nEl : nat) (A : matsp Rcr) (vec_b : list R)
    : option (matsp Rcr * list R) :=
  '((A, b), _) <- forn 0 nEl (fun iel st =>
     let '((A, b), buf) := st in
     aIP <- element nno aEl iel ;;
     '(eres, emat) <- elem aIP ;;
     b <- forn 0 nno (fun ino b =>
        ip <- vget aIP ino ;;
        forn 0 ndim (fun a b => vmod b (ip * ndim + a) (fun t => t + eres ino a)) b) b ;;
     '(_, (A, buf)) <- mrg A aIP aIP (flat nno ndim emat) buf ;;
     Some ((A, b), buf)) ((A, vec_b), repeat None np) ;;
  Some (A, b).

Definition scal (r : (nat -> R) * (nat -> nat -> R)) : vecf * matf := (fun i _ => fst r i, fun i j _ _ => snd r i j).

(** fem_poisson.h:92-126. *)
Definition MergeLinSys_Poission_MeshTri2D (dbg : bool) (A : matsp Rcr) (vec_b : list R) (alpha source : R)
    (aXY : list R) (np : nat) (aTri : list nat) (nTri : nat) (aVal : list R) : option (matsp Rcr * list R) :=
  assemble 3 1 (Merge2 dbg) (fun aIP =>
    coords <- FetchData 3 2 aIP aXY ;; value <- FetchData 3 1 aIP aVal ;;
    Some (scal (EMat_Poisson_Tri2D alpha source coords (fun i => value i 0%nat)))) np aTri nTri A vec_b.
(** fem_poisson.h:128-162. *)
Definition MergeLinSys_Poission_MeshTet3D (dbg : bool) (A : matsp Rcr) (vec_b : list R) (alpha source : R)
    (aXYZ : list R) (np : nat) (aTet : list nat) (nTet : nat) (aVal : list R) : option (matsp Rcr * list R) :=
  assemble 4 1 (Merge2 dbg) (fun aIP =>
    coords <- FetchData 4 3 aIP aXYZ ;; value <- FetchData 4 1 aIP aVal ;;
    Some (scal (EMat_Poisson_Tet3D alpha source coords (fun i => value i 0%nat)))) np aTet nTet A vec_b.
(** fem_poisson.h:164-202. *)
Definition MergeLinSys_Diffusion_MeshTri2D (dbg : bool) (A : matsp Rcr) (vec_b : list R) (alpha rho source dt gamma : R)
    (aXY : list R) (np : nat) (aTri : list nat) (nTri : nat) (aVal aVelo : list R) : option (matsp Rcr * list R) :=
  assemble 3 1 (Merge2 dbg) (fun aIP =>
    coords <- FetchData 3 2 aIP aXY ;; value <- FetchData 3 1 aIP aVal ;; velo <- FetchData 3 1 aIP aVelo ;;
    Some (scal (EMat_Diffusion_Tri2D alpha source dt gamma rho coords (fun i => value i 0%nat) (fun i => velo i 0%nat))))
    np aTri nTri A vec_b.
(** fem_poisson.h:204-247. *)
Definition MergeLinSys_Diffusion_MeshTet3D (dbg : bool) (A : matsp Rcr) (vec_b : list R) (alpha rho source dt gamma : R)
    (aXYZ : list R) (np : nat) (aTet : list nat) (nTet : nat) (aVal aVelo : list R) : option (matsp Rcr * list R) :=
  assemble 4 1 (Merge2 dbg) (fun aIP =>
    coords <- FetchData 4 3 aIP aXYZ ;; value <- FetchData 4 1 aIP aVal ;; velo <- FetchData 4 1 aIP aVelo ;;
    Some (scal (EMat_Diffusion_Newmark_Tet3D alpha source dt gamma rho coords (fun i => value i 0%nat) (fun i => velo i 0%nat))))
    np aTet nTet A vec_b.

(** ---- linear solid ---- *)
(** fem_solidlinear.cpp:35-53, SetEmat_LinearSolid2<3>. *)
Definition SetEmat_LinearSolid2 (lambda myu : R) (dldx : vecf) (w : R) : matf := fun i j a b =>
  let dtmp1 := w * myu * (dldx i 1%nat * dldx j 1%nat + dldx i 0%nat * dldx j 0%nat) in
  match a, b with
  | 0%nat, 0%nat => w * (lambda + myu) * dldx i 0%nat * dldx j 0%nat + dtmp1
  | 0%nat, 1%nat => w * (lambda * dldx i 0%nat * dldx j 1%nat + myu * dldx j 0%nat * dldx i 1%nat)
  | 1%nat, 0%nat => w * (lambda * dldx i 1%nat * dldx j 0%nat + myu * dldx j 1%nat * dldx i 0%nat)
  | 1%nat, 1%nat => w * (lambda + myu) * dldx i 1%nat * dldx j 1%nat + dtmp1
  | _, _ => 0 end.
(** fem_solidlinear.h:128-153 SetEmat_LinearSolid3<nno>; fem_solidlinear.cpp:55-80 AddEmat_LinearSolid3<nno> adds the same
    numbers to emat. *)
Definition SetEmat_LinearSolid3 (lambda myu : R) (dNdx : vecf) (w : R) : matf := fun i j a b =>
  let dtmp1 := dNdx i 0%nat * dNdx j 0%nat + dNdx i 1%nat * dNdx j 1%nat + dNdx i 2%nat * dNdx j 2%nat in
  let x := w * (lambda * dNdx i a * dNdx j b + myu * dNdx j a * dNdx i b) in
  if (a =? b)%nat then x + w * myu * dtmp1 else x.
Definition AddEmat_LinearSolid3 (emat : matf) (lambda myu : R) (dNdx : vecf) (w : R) : matf := fun i j a b =>
  let dtmp1 := dNdx i 0%nat * dNdx j 0%nat + dNdx i 1%nat * dNdx j 1%nat + dNdx i 2%nat * dNdx j 2%nat in
  let x := emat i j a b + w * (lambda * dNdx i a * dNdx j b + myu * dNdx j a * dNdx i b) in
  if (a =? b)%nat then x + w * myu * dtmp1 else x.

(** femutil.h:231-250, EmatConsistentMassTri2<2> with is_add = false. *)
Definition EmatConsistentMassTri2 (w0 : R) : matf := fun i j a b =>
  let dtmp1 := w0 * / 12 in
  if (a =? b)%nat then (if (i =? j)%nat then 0 + dtmp1 + dtmp1 else 0 + dtmp1) else 0.
(** femutil.cpp:260-281. *)
Definition SetEmatConsistentMassTet (w0 : R) : matf := fun i j a b =>
  let dtmp1 := w0 * / 20 in
  if (a =? b)%nat then (if (i =? j)%nat then dtmp1 + dtmp1 else dtmp1) else 0.
(** femutil.h:252-270. *)
Definition AddEmatEvecScale3 (nno : nat) (r : vecf) (eM : matf) (v0 : vecf) (scale : R) : vecf := fun i a =>
  accR nno (fun j => scale * (eM i j a 0%nat * v0 j 0%nat + eM i j a 1%nat * v0 j 1%nat + eM i j a 2%nat * v0 j 2%nat)) (r i a).

(** fem_solidlinear.cpp:89-124. *)
Definition EMat_SolidStaticLinear_Tri2D (myu lambda rho g_x g_y : R) (disp coords : vecf) : vecf * matf :=
  let area := TriArea2D (coords 0%nat) (coords 1%nat) (coords 2%nat) in
  let '(dldx, _) := TriDlDx (coords 0%nat) (coords 1%nat) (coords 2%nat) in
  let emat := SetEmat_LinearSolid2 lambda myu dldx area in
  let eres := fun (i a : nat) => match a with 0%nat => area * rho * g_x * / 3 | _ => area * rho * g_y * / 3 end in
  (fun i a => decR 3 (fun j => emat i j a 0%nat * disp j 0%nat + emat i j a 1%nat * disp j 1%nat) (eres i a), emat).

(** fem_solidlinear.cpp:126-200. *)
Definition EMat_SolidDynamicLinear_Tri2D (myu lambda rho g_x g_y dt beta : R) (disp velo acc coords : vecf)
    (is_initial : bool) : vecf * matf :=
  let area := TriArea2D (coords 0%nat) (coords 1%nat) (coords 2%nat) in
  let '(dldx, _) := TriDlDx (coords 0%nat) (coords 1%nat) (coords 2%nat) in
  let eKmat := SetEmat_LinearSolid2 lambda myu dldx area in
  let eMmat := EmatConsistentMassTri2 (area * rho) in
  let eres := fun (i a : nat) => match a with 0%nat => area * rho * g_x * / 3 | _ => area * rho * g_y * / 3 end in
  let dtmp1 := beta * dt * dt in
  let emat := fun i j a b => eMmat i j a b + dtmp1 * eKmat i j a b in
  let eres := fun i a => decR 3 (fun j => eKmat i j a 0%nat * disp j 0%nat + eKmat i j a 1%nat * disp j 1%nat) (eres i a) in
  let eres := fun i a => decR 3 (fun j => eMmat i j a 0%nat * acc j 0%nat + eMmat i j a 1%nat * acc j 1%nat) (eres i a) in
  if is_initial then
    let eres := fun i a => decR 3 (fun j => dt * (eKmat i j a 0%nat * velo j 0%nat + eKmat i j a 1%nat * velo j 1%nat)) (eres i a) in
    let eres := fun i a => decR 3 (fun j => / 2 * dt * dt * (eKmat i j a 0%nat * acc j 0%nat + eKmat i j a 1%nat * acc j 1%nat)) (eres i a) in
    (eres, emat)
  else (eres, emat).

(** fem_solidlinear.cpp:409-435 with is_add = true. *)
Definition EMat_SolidLinear_Static_Tet_add (emat : matf) (eres : vecf) (myu lambda : R) (P disp : vecf) : vecf * matf :=
  let vol := TetVolume3D (P 0%nat) (P 1%nat) (P 2%nat) (P 3%nat) in
  let '(dldx, _) := TetDlDx (P 0%nat) (P 1%nat) (P 2%nat) (P 3%nat) in
  let emat := AddEmat_LinearSolid3 emat lambda myu dldx vol in
  (AddEmatEvecScale3 4 eres emat disp (- 1), emat).

(** fem_solidlinear.cpp:437-498. *)
Definition EMat_SolidLinear_NewmarkBeta_MeshTet3D (myu lambda rho g_x g_y g_z dt beta : R) (disp velo acc P : vecf)
    (is_initial : bool) : vecf * matf :=
  let vol := TetVolume3D (P 0%nat) (P 1%nat) (P 2%nat) (P 3%nat) in
  let '(dldx, _) := TetDlDx (P 0%nat) (P 1%nat) (P 2%nat) (P 3%nat) in
  let eKmat := SetEmat_LinearSolid3 lambda myu dldx vol in
  let eMmat := SetEmatConsistentMassTet (rho * vol) in
  let dtmp1 := beta * dt * dt in
  let emat := fun i j a b => eMmat i j a b + dtmp1 * eKmat i j a b in
  let eres := fun (i a : nat) => match a with 0%nat => vol * rho * g_x * / 4 | 1%nat => vol * rho * g_y * / 4 | _ => vol * rho * g_z * / 4 end in
  let eres := AddEmatEvecScale3 4 eres eKmat disp (- 1) in
  let eres := AddEmatEvecScale3 4 eres eMmat acc (- 1) in
  if is_initial then
    let eres := AddEmatEvecScale3 4 eres eKmat velo (- dt) in
    let eres := AddEmatEvecScale3 4 eres eKmat acc (- / 2 * dt * dt) in
    (eres, emat)
  else (eres, emat).

(** fem_solidlinear.h:155-189. *)
Definition MergeLinSys_SolidLinear_Static_MeshTri2D (dbg : bool) (A : matsp Rcr) (vec_b : list R) (myu lambda rho g_x g_y : R)
    (aXY : list R) (np : nat) (aTri : list nat) (nTri : nat) (aVal : list R) : option (matsp Rcr * list R) :=
  assemble 3 2 (Merge4 dbg 2 2) (fun aIP =>
    coords <- FetchData 3 2 aIP aXY ;; disps <- FetchData 3 2 aIP aVal ;;
    Some (EMat_SolidStaticLinear_Tri2D myu lambda rho g_x g_y disps coords)) np aTri nTri A vec_b.
(** fem_solidlinear.h:192-237; [g] has 3 entries. *)
Definition MergeLinSys_SolidLinear_Static_MeshTet3D (dbg : bool) (A : matsp Rcr) (vec_b : list R) (myu lambda rho : R) (g : nat -> R)
    (aXYZ : list R) (np : nat) (aTet : list nat) (nTet : nat) (aDisp : list R) : option (matsp Rcr * list R) :=
  assemble 4 3 (Merge4 dbg 3 3) (fun aIP =>
    P <- FetchData 4 3 aIP aXYZ ;; disps <- FetchData 4 3 aIP aDisp ;;
    let vol := TetVolume3D (P 0%nat) (P 1%nat) (P 2%nat) (P 3%nat) in
    Some (EMat_SolidLinear_Static_Tet_add (fun _ _ _ _ => 0) (fun _ a => vol * rho * g a * / 4) myu lambda P disps)) np aTet nTet A vec_b.
(** fem_solidlinear.h:281-329. *)
Definition MergeLinSys_SolidLinear_NewmarkBeta_MeshTri2D (dbg : bool) (A : matsp Rcr) (vec_b : list R)
    (myu lambda rho g_x g_y dt beta : R) (aXY : list R) (np : nat) (aTri : list nat) (nTri : nat)
    (aVal aVelo aAcc : list R) : option (matsp Rcr * list R) :=
  assemble 3 2 (Merge4 dbg 2 2) (fun aIP =>
    coords <- FetchData 3 2 aIP aXY ;; disps <- FetchData 3 2 aIP aVal ;; velos <- FetchData 3 2 aIP aVelo ;;
    accs <- FetchData 3 2 aIP aAcc ;;
    Some (EMat_SolidDynamicLinear_Tri2D myu lambda rho g_x g_y dt beta disps velos accs coords true)) np aTri nTri A vec_b.
(** fem_solidlinear.h:331-379. *)
Definition MergeLinSys_SolidLinear_NewmarkBeta_MeshTet3D (dbg : bool) (A : matsp Rcr) (vec_b : list R)
    (myu lambda rho : R) (g : nat -> R) (dt beta : R) (aXYZ : list R) (np : nat) (aTet : list nat) (nTet : nat)
    (aVal aVelo aAcc : list R) : option (matsp Rcr * list R) :=
  assemble 4 3 (Merge4 dbg 3 3) (fun aIP =>
    P <- FetchData 4 3 aIP aXYZ ;; disps <- FetchData 4 3 aIP aVal ;; velos <- FetchData 4 3 aIP aVelo ;;
    accs <- FetchData 4 3 aIP aAcc ;;
    Some (EMat_SolidLinear_NewmarkBeta_MeshTet3D myu lambda rho (g 0%nat) (g 1%nat) (g 2%nat) dt beta disps velos accs P true))
    np aTet nTet A vec_b.
(** fem_solidlinear.h:381-443: the whole element computation of MergeLinSys_SolidLinear_BEuler_MeshTet3D. *)
Definition BEuler_elem (myu lambda rho : R) (g : nat -> R) (dt : R) (P u v : vecf) : vecf * matf :=
  let vol := TetVolume3D (P 0%nat) (P 1%nat) (P 2%nat) (P 3%nat) in
  let '(dldx, _) := TetDlDx (P 0%nat) (P 1%nat) (P 2%nat) (P 3%nat) in
  let emat := SetEmat_LinearSolid3 lambda myu dldx vol in
  let eres := fun i a => fold_left (fun s j =>
      s - emat i j a 0%nat * (u j 0%nat + dt * v j 0%nat) - emat i j a 1%nat * (u j 1%nat + dt * v j 1%nat)
        - emat i j a 2%nat * (u j 2%nat + dt * v j 2%nat)) (seq 0 4) (vol * rho * g a * / 4) in
  let emat := fun i j a b : nat => if ((i =? j) && (a =? b))%bool%nat then emat i j a b + rho * vol * / 4 / (dt * dt) else emat i j a b in
  (fun i a => eres i a / dt, emat).
Definition MergeLinSys_SolidLinear_BEuler_MeshTet3D (dbg : bool) (A : matsp Rcr) (vec_b : list R)
    (myu lambda rho : R) (g : nat -> R) (dt : R) (aXYZ : list R) (np : nat) (aTet : list nat) (nTet : nat)
    (aDisp aVelo : list R) : option (matsp Rcr * list R) :=
  assemble 4 3 (Merge4 dbg 3 3) (fun aIP =>
    P <- FetchData 4 3 aIP aXYZ ;; u <- FetchData 4 3 aIP aDisp ;; v <- FetchData 4 3 aIP aVelo ;;
    Some (BEuler_elem myu lambda rho g dt P u v)) np aTet nTet A vec_b.
(** femutil.cpp:88-115 MatVec3, MatMat3, MatMatTrans3, with 3x3 matrices as functions. *)
Definition MatVec3f (m : nat -> nat -> R) (x : nat -> R) : nat -> R := fun i => m i 0%nat * x 0%nat + m i 1%nat * x 1%nat + m i 2%nat * x 2%nat.
Definition MatMat3f (A B : nat -> nat -> R) : nat -> nat -> R := fun i j => A i 0%nat * B 0%nat j + A i 1%nat * B 1%nat j + A i 2%nat * B 2%nat j.
Definition MatMatTrans3f (A B : nat -> nat -> R) : nat -> nat -> R := fun i j => A i 0%nat * B j 0%nat + A i 1%nat * B j 1%nat + A i 2%nat * B j 2%nat.
(** fem_solidlinear.h:445-526: the element computation of MergeLinSys_SolidStiffwarp_BEuler_MeshTet3D; [M i] is the matrix of
    corner i, read from aR. *)
Definition Stiffwarp_elem (myu lambda rho : R) (g : nat -> R) (dt : R) (P u0 v0 : vecf) (M : nat -> nat -> nat -> R) : vecf * matf :=
  let vol := TetVolume3D (P 0%nat) (P 1%nat) (P 2%nat) (P 3%nat) in
  let '(dldx, _) := TetDlDx (P 0%nat) (P 1%nat) (P 2%nat) (P 3%nat) in
  let emat0 := SetEmat_LinearSolid3 lambda myu dldx vol in
  let emat := fun i j => MatMat3f (M i) (MatMatTrans3f (emat0 i j) (M i)) in
  let uj1 := fun i j a => P j a + u0 j a + dt * v0 j a - MatVec3f (M i) (P j) a in
  let eres := fun i a => fold_left (fun s j =>
      s - emat i j a 0%nat * uj1 i j 0%nat - emat i j a 1%nat * uj1 i j 1%nat - emat i j a 2%nat * uj1 i j 2%nat)
      (seq 0 4) (vol * rho * g a * / 4) in
  let emat := fun i j a b : nat => if ((i =? j) && (a =? b))%bool%nat then emat i j a b + rho * vol * / 4 / (dt * dt) else emat i j a b in
  (fun i a => eres i a / dt, emat).
Definition MergeLinSys_SolidStiffwarp_BEuler_MeshTet3D (dbg : bool) (A : matsp Rcr) (vec_b : list R)
    (myu lambda rho : R) (g : nat -> R) (dt : R) (aXYZ : list R) (np : nat) (aTet : list nat) (nTet : nat)
    (aDisp aVelo aR : list R) : option (matsp Rcr * list R) :=
  assertb (length aR =? np * 9)%nat ;;;
  assemble 4 3 (Merge4 dbg 3 3) (fun aIP =>
    P <- FetchData 4 3 aIP aXYZ ;; u0 <- FetchData 4 3 aIP aDisp ;; v0 <- FetchData 4 3 aIP aVelo ;;
    M <- FetchData 4 9 aIP aR ;;
    Some (Stiffwarp_elem myu lambda rho g dt P u0 v0 (fun i a b => M i (a * 3 + b)%nat))) np aTet nTet A vec_b.
