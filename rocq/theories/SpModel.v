(** Model of /repo/include/delfem2/ls_block_sparse.{h,cpp}: block sparse matrices (CMatrixSparse<T>).
    Scalars are elements of a commutative ring; pointers to arrays are lists with checked accesses. *)
From Coq Require Import List Arith Bool ZArith.
Import ListNotations.
From Verif Require Import Imp Alg.

(** ls_block_sparse.h:185-202, the data members. *)
Record matsp (K : cring) := mkM {
  nrowblk : nat; ncolblk : nat; nrowdim : nat; ncoldim : nat;
  col_ind : list nat; row_ptr : list nat; val_crs : list K; val_dia : list K }.
Arguments mkM {K}. Arguments nrowblk {K}. Arguments ncolblk {K}. Arguments nrowdim {K}. Arguments ncoldim {K}.
Arguments col_ind {K}. Arguments row_ptr {K}. Arguments val_crs {K}. Arguments val_dia {K}.

(** [assert(b)] in a build with ([dbg = true]) or without ([dbg = false], NDEBUG) assertions. *)
Definition asrt (dbg b : bool) : option unit := if dbg then assertb b else Some tt.

Section Sp.
Variable K : cring.
Local Open Scope K_scope.
Local Notation "x +n y" := (Nat.add x y) (at level 50, left associativity).
Local Notation "x *n y" := (Nat.mul x y) (at level 40, left associativity).

(** ls_block_sparse.h:45-55. *)
Definition Initialize (nblk len : nat) (is_dia : bool) : matsp K :=
  mkM nblk nblk len len (repeat 0%nat (nblk +n 1)) [] [] (if is_dia then repeat 0 (nblk *n len *n len) else []).

(** ls_block_sparse.h:72-85.  [val_crs_.resize]: new entries are value-initialised. *)
Definition SetPattern (A : matsp K) (colind rowptr : list nat) : option (matsp K) :=
  assertb (length (row_ptr A) =? 0)%nat ;;;
  assertb (length colind =? nrowblk A +n 1)%nat ;;;
  ci <- forn 0 (nrowblk A +n 1) (fun iblk ci => c <- vget colind iblk ;; vset ci iblk c) (col_ind A) ;;
  ncrs <- vget colind (nrowblk A) ;;
  assertb (ncrs =? length rowptr)%nat ;;;
  rp <- forn 0 ncrs (fun icrs rp => r <- vget rowptr icrs ;; vset rp icrs r) (vresize 0%nat (row_ptr A) ncrs) ;;
  Some (mkM (nrowblk A) (ncolblk A) (nrowdim A) (ncoldim A) ci rp
            (vresize 0 (val_crs A) (ncrs *n nrowdim A *n ncoldim A)) (val_dia A)).

(** ls_block_sparse.h:92-105. *)
Definition setZero (A : matsp K) : option (matsp K) :=
  dia <- (if (length (val_dia A) =? 0)%nat then Some (val_dia A) else
      assertb ((nrowdim A =? ncoldim A) && (nrowblk A =? ncolblk A))%nat ;;;
      assertb (length (val_dia A) =? nrowdim A *n nrowdim A *n nrowblk A)%nat ;;;
      forn 0 (length (val_dia A)) (fun i d => vset d i 0) (val_dia A)) ;;
  assertb (length (val_crs A) =? nrowdim A *n ncoldim A *n length (row_ptr A))%nat ;;;
  crs <- forn 0 (length (val_crs A)) (fun i d => vset d i 0) (val_crs A) ;;
  Some (mkM (nrowblk A) (ncolblk A) (nrowdim A) (ncoldim A) (col_ind A) (row_ptr A) crs dia).

(** ls_block_sparse.h:153-164. *)
Definition AddDia (eps : K) (A : matsp K) : option (matsp K) :=
  assertb (ncolblk A =? nrowblk A)%nat ;;; assertb (ncoldim A =? nrowdim A)%nat ;;;
  let blksize := (nrowdim A *n ncoldim A)%nat in
  let nlen := nrowdim A in
  if (length (val_dia A) =? 0)%nat then Some A else
  d <- forn 0 (nrowblk A) (fun ino d =>
      forn 0 nlen (fun ilen d => vmod d (ino *n blksize +n ilen *n nlen +n ilen)%nat (fun t => t + eps)) d) (val_dia A) ;;
  Some (mkM (nrowblk A) (ncolblk A) (nrowdim A) (ncoldim A) (col_ind A) (row_ptr A) (val_crs A) d).

(** [y[i] += v] *)
Definition pluseq (y : list K) (i : nat) (v : K) : option (list K) := vmod y i (fun t => t + v).

(** The inner products written out in ls_block_sparse.cpp:95-96 (2 terms), 121-123 (3 terms), 153-177 (4 terms):
    v[k]*x[j] + v[k+1]*x[j+1] + ... *)
Definition row2 (v : list K) (k : nat) (x : list K) (j : nat) : option K :=
  v0 <- vget v (k +n 0) ;; x0 <- vget x (j +n 0) ;; v1 <- vget v (k +n 1) ;; x1 <- vget x (j +n 1) ;;
  Some (v0 * x0 + v1 * x1).
Definition row3 (v : list K) (k : nat) (x : list K) (j : nat) : option K :=
  v0 <- vget v (k +n 0) ;; x0 <- vget x (j +n 0) ;; v1 <- vget v (k +n 1) ;; x1 <- vget x (j +n 1) ;;
  v2 <- vget v (k +n 2) ;; x2 <- vget x (j +n 2) ;;
  Some (v0 * x0 + v1 * x1 + v2 * x2).
Definition row4 (v : list K) (k : nat) (x : list K) (j : nat) : option K :=
  v0 <- vget v (k +n 0) ;; x0 <- vget x (j +n 0) ;; v1 <- vget v (k +n 1) ;; x1 <- vget x (j +n 1) ;;
  v2 <- vget v (k +n 2) ;; x2 <- vget x (j +n 2) ;; v3 <- vget v (k +n 3) ;; x3 <- vget x (j +n 3) ;;
  Some (v0 * x0 + v1 * x1 + v2 * x2 + v3 * x3).

(** ls_block_sparse.cpp:59-78. *)
Definition MatVec_Blk11 (y : list K) (alpha : K) (nrowblk : nat) (vcrs vdia : list K) (colind rowptr : list nat)
    (x : list K) : option (list K) :=
  forn 0 nrowblk (fun iblk y =>
    colind0 <- vget colind iblk ;; colind1 <- vget colind (iblk +n 1) ;;
    y <- forn colind0 colind1 (fun icrs y =>
        jblk0 <- vget rowptr icrs ;;
        v <- vget vcrs icrs ;; xj <- vget x jblk0 ;; pluseq y iblk (alpha * v * xj)) y ;;
    d <- vget vdia iblk ;; xi <- vget x iblk ;; pluseq y iblk (alpha * d * xi)) y.

(** ls_block_sparse.cpp:80-101. *)
Definition MatVec_Blk22 (y : list K) (alpha : K) (nrowblk : nat) (vcrs vdia : list K) (colind rowptr : list nat)
    (x : list K) : option (list K) :=
  forn 0 nrowblk (fun iblk y =>
    icrs0 <- vget colind iblk ;; icrs1 <- vget colind (iblk +n 1) ;;
    y <- forn icrs0 icrs1 (fun icrs y =>
        jblk0 <- vget rowptr icrs ;;
        r <- row2 vcrs (icrs *n 4) x (jblk0 *n 2) ;; y <- pluseq y (iblk *n 2 +n 0) (alpha * r) ;;
        r <- row2 vcrs (icrs *n 4 +n 2) x (jblk0 *n 2) ;; pluseq y (iblk *n 2 +n 1) (alpha * r)) y ;;
    r <- row2 vdia (iblk *n 4) x (iblk *n 2) ;; y <- pluseq y (iblk *n 2 +n 0) (alpha * r) ;;
    r <- row2 vdia (iblk *n 4 +n 2) x (iblk *n 2) ;; pluseq y (iblk *n 2 +n 1) (alpha * r)) y.

(** ls_block_sparse.cpp:103-133. *)
Definition MatVec_Blk33 (y : list K) (alpha : K) (nrowblk : nat) (vcrs vdia : list K) (colind rowptr : list nat)
    (x : list K) : option (list K) :=
  forn 0 nrowblk (fun iblk y =>
    icrs0 <- vget colind iblk ;; icrs1 <- vget colind (iblk +n 1) ;;
    y <- forn icrs0 icrs1 (fun icrs y =>
        jblk0 <- vget rowptr icrs ;;
        let i0 := (iblk *n 3)%nat in let j0 := (jblk0 *n 3)%nat in let k0 := (icrs *n 9)%nat in
        r <- row3 vcrs k0 x j0 ;; y <- pluseq y (i0 +n 0) (alpha * r) ;;
        r <- row3 vcrs (k0 +n 3) x j0 ;; y <- pluseq y (i0 +n 1) (alpha * r) ;;
        r <- row3 vcrs (k0 +n 6) x j0 ;; pluseq y (i0 +n 2) (alpha * r)) y ;;
    let i0 := (iblk *n 3)%nat in let k0 := (iblk *n 9)%nat in
    r <- row3 vdia k0 x i0 ;; y <- pluseq y (i0 +n 0) (alpha * r) ;;
    r <- row3 vdia (k0 +n 3) x i0 ;; y <- pluseq y (i0 +n 1) (alpha * r) ;;
    r <- row3 vdia (k0 +n 6) x i0 ;; pluseq y (i0 +n 2) (alpha * r)) y.

(** ls_block_sparse.cpp:135-207. *)
Definition MatVec_Blk44 (y : list K) (alpha : K) (nrowblk : nat) (vcrs vdia : list K) (colind rowptr : list nat)
    (x : list K) : option (list K) :=
  forn 0 nrowblk (fun iblk y =>
    icrs0 <- vget colind iblk ;; icrs1 <- vget colind (iblk +n 1) ;;
    y <- forn icrs0 icrs1 (fun icrs y =>
        jblk0 <- vget rowptr icrs ;;
        let i0 := (iblk *n 4)%nat in let j0 := (jblk0 *n 4)%nat in let k0 := (icrs *n 16)%nat in
        r <- row4 vcrs k0 x j0 ;; y <- pluseq y (i0 +n 0) (alpha * r) ;;
        r <- row4 vcrs (k0 +n 4) x j0 ;; y <- pluseq y (i0 +n 1) (alpha * r) ;;
        r <- row4 vcrs (k0 +n 8) x j0 ;; y <- pluseq y (i0 +n 2) (alpha * r) ;;
        r <- row4 vcrs (k0 +n 12) x j0 ;; pluseq y (i0 +n 3) (alpha * r)) y ;;
    let i0 := (iblk *n 4)%nat in let k0 := (iblk *n 16)%nat in
    r <- row4 vdia k0 x i0 ;; y <- pluseq y (i0 +n 0) (alpha * r) ;;
    r <- row4 vdia (k0 +n 4) x i0 ;; y <- pluseq y (i0 +n 1) (alpha * r) ;;
    r <- row4 vdia (k0 +n 8) x i0 ;; y <- pluseq y (i0 +n 2) (alpha * r) ;;
    r <- row4 vdia (k0 +n 12) x i0 ;; pluseq y (i0 +n 3) (alpha * r)) y.

(** [for(i=0;i<n;++i){ y[i] *= beta; }] (ls_block_sparse.cpp:222, 300, 354). *)
Definition scale_all (n : nat) (beta : K) (y : list K) : option (list K) :=
  forn 0 n (fun i y => vmod y i (fun t => t * beta)) y.

(** ls_block_sparse.cpp:244-271, the branch for the other block sizes. *)
Definition MatVec_Gen (A : matsp K) (y : list K) (alpha : K) (x : list K) : option (list K) :=
  let blksize := (nrowdim A *n ncoldim A)%nat in
  forn 0 (nrowblk A) (fun iblk y =>
    colind0 <- vget (col_ind A) iblk ;; colind1 <- vget (col_ind A) (iblk +n 1) ;;
    y <- forn colind0 colind1 (fun icrs y =>
        assertb (icrs <? length (row_ptr A))%nat ;;;
        jblk0 <- vget (row_ptr A) icrs ;;
        assertb (jblk0 <? ncolblk A)%nat ;;;
        forn 0 (nrowdim A) (fun idof y =>
          forn 0 (ncoldim A) (fun jdof y =>
            v <- vget (val_crs A) (icrs *n blksize +n idof *n ncoldim A +n jdof) ;;
            xj <- vget x (jblk0 *n ncoldim A +n jdof) ;;
            pluseq y (iblk *n nrowdim A +n idof) (alpha * v * xj)) y) y) y ;;
    forn 0 (nrowdim A) (fun idof y =>
      forn 0 (ncoldim A) (fun jdof y =>
        v <- vget (val_dia A) (iblk *n blksize +n idof *n ncoldim A +n jdof) ;;
        xj <- vget x (iblk *n ncoldim A +n jdof) ;;
        pluseq y (iblk *n nrowdim A +n idof) (alpha * v * xj)) y) y) y.

(** ls_block_sparse.cpp:215-273. *)
Definition MatVec (A : matsp K) (y : list K) (alpha : K) (x : list K) (beta : K) : option (list K) :=
  y <- scale_all (nrowdim A *n nrowblk A) beta y ;;
  if ((nrowdim A =? 1) && (ncoldim A =? 1))%nat then
    MatVec_Blk11 y alpha (nrowblk A) (val_crs A) (val_dia A) (col_ind A) (row_ptr A) x
  else if ((nrowdim A =? 2) && (ncoldim A =? 2))%nat then
    MatVec_Blk22 y alpha (nrowblk A) (val_crs A) (val_dia A) (col_ind A) (row_ptr A) x
  else if ((nrowdim A =? 3) && (ncoldim A =? 3))%nat then
    MatVec_Blk33 y alpha (nrowblk A) (val_crs A) (val_dia A) (col_ind A) (row_ptr A) x
  else if ((nrowdim A =? 4) && (ncoldim A =? 4))%nat then
    MatVec_Blk44 y alpha (nrowblk A) (val_crs A) (val_dia A) (col_ind A) (row_ptr A) x
  else MatVec_Gen A y alpha x.

(** ls_block_sparse.cpp:292-327. *)
Definition MatVecDegenerate (A : matsp K) (y : list K) (len : nat) (alpha : K) (x : list K) (beta : K)
    : option (list K) :=
  assertb ((nrowdim A =? 1) && (ncoldim A =? 1))%nat ;;;
  y <- scale_all (len *n nrowblk A) beta y ;;
  forn 0 (nrowblk A) (fun iblk y =>
    colind0 <- vget (col_ind A) iblk ;; colind1 <- vget (col_ind A) (iblk +n 1) ;;
    y <- forn colind0 colind1 (fun icrs y =>
        assertb (icrs <? length (row_ptr A))%nat ;;;
        jblk0 <- vget (row_ptr A) icrs ;;
        assertb (jblk0 <? ncolblk A)%nat ;;;
        v <- vget (val_crs A) icrs ;;
        let mval0 := alpha * v in
        forn 0 len (fun ilen y =>
          xj <- vget x (jblk0 *n len +n ilen) ;; pluseq y (iblk *n len +n ilen) (mval0 * xj)) y) y ;;
    v <- vget (val_dia A) iblk ;;
    let mval0 := alpha * v in
    forn 0 len (fun ilen y =>
      xj <- vget x (iblk *n len +n ilen) ;; pluseq y (iblk *n len +n ilen) (mval0 * xj)) y) y.

(** ls_block_sparse.cpp:347-384. *)
Definition MatTVec (A : matsp K) (y : list K) (alpha : K) (x : list K) (beta : K) : option (list K) :=
  y <- scale_all (ncoldim A *n ncolblk A) beta y ;;
  let blksize := (nrowdim A *n ncoldim A)%nat in
  forn 0 (nrowblk A) (fun iblk y =>
    colind0 <- vget (col_ind A) iblk ;; colind1 <- vget (col_ind A) (iblk +n 1) ;;
    y <- forn colind0 colind1 (fun icrs y =>
        assertb (icrs <? length (row_ptr A))%nat ;;;
        jblk0 <- vget (row_ptr A) icrs ;;
        assertb (jblk0 <? ncolblk A)%nat ;;;
        forn 0 (nrowdim A) (fun idof y =>
          forn 0 (ncoldim A) (fun jdof y =>
            v <- vget (val_crs A) (icrs *n blksize +n idof *n ncoldim A +n jdof) ;;
            xi <- vget x (iblk *n nrowdim A +n idof) ;;
            pluseq y (jblk0 *n ncoldim A +n jdof) (alpha * v * xi)) y) y) y ;;
    forn 0 (ncoldim A) (fun jdof y =>
      forn 0 (nrowdim A) (fun idof y =>
        v <- vget (val_dia A) (iblk *n blksize +n idof *n ncoldim A +n jdof) ;;
        xi <- vget x (iblk *n nrowdim A +n idof) ;;
        pluseq y (iblk *n ncoldim A +n jdof) (alpha * v * xi)) y) y) y.

(** ls_block_sparse.cpp:397-415. *)
Definition SetFixedBC_Dia (A : matsp K) (bc : list Z) (dv : K) : option (matsp K) :=
  assertb (negb (length (val_dia A) =? 0))%nat ;;;
  assertb (ncolblk A =? nrowblk A)%nat ;;; assertb (ncoldim A =? nrowdim A)%nat ;;;
  let blksize := (nrowdim A *n ncoldim A)%nat in
  d <- forn 0 (nrowblk A) (fun iblk d =>
    forn 0 (nrowdim A) (fun ilen d =>
      f <- vget bc (iblk *n nrowdim A +n ilen) ;;
      if (f =? 0)%Z then Some d else
      d <- forn 0 (ncoldim A) (fun jlen d =>
        d <- vset d (iblk *n blksize +n ilen *n nrowdim A +n jlen) 0 ;;
        vset d (iblk *n blksize +n jlen *n nrowdim A +n ilen) 0) d ;;
      vset d (iblk *n blksize +n ilen *n nrowdim A +n ilen) dv) d) (val_dia A) ;;
  Some (mkM (nrowblk A) (ncolblk A) (nrowdim A) (ncoldim A) (col_ind A) (row_ptr A) (val_crs A) d).

(** ls_block_sparse.cpp:427-444. *)
Definition SetFixedBC_Row (A : matsp K) (bc : list Z) : option (matsp K) :=
  assertb (negb (length (val_dia A) =? 0))%nat ;;;
  assertb (ncolblk A =? nrowblk A)%nat ;;; assertb (ncoldim A =? nrowdim A)%nat ;;;
  let blksize := (nrowdim A *n ncoldim A)%nat in
  c <- forn 0 (nrowblk A) (fun iblk c =>
    lo <- vget (col_ind A) iblk ;; hi <- vget (col_ind A) (iblk +n 1) ;;
    forn lo hi (fun icrs c =>
      forn 0 (nrowdim A) (fun ilen c =>
        f <- vget bc (iblk *n nrowdim A +n ilen) ;;
        if (f =? 0)%Z then Some c else
        forn 0 (ncoldim A) (fun jlen c => vset c (icrs *n blksize +n ilen *n nrowdim A +n jlen) 0) c) c) c) (val_crs A) ;;
  Some (mkM (nrowblk A) (ncolblk A) (nrowdim A) (ncoldim A) (col_ind A) (row_ptr A) c (val_dia A)).

(** ls_block_sparse.cpp:456-472. *)
Definition SetFixedBC_Col (A : matsp K) (bc : list Z) : option (matsp K) :=
  assertb (negb (length (val_dia A) =? 0))%nat ;;;
  assertb (ncolblk A =? nrowblk A)%nat ;;; assertb (ncoldim A =? nrowdim A)%nat ;;;
  let blksize := (nrowdim A *n ncoldim A)%nat in
  c <- forn 0 (length (row_ptr A)) (fun icrs c =>
    jblk1 <- vget (row_ptr A) icrs ;;
    forn 0 (ncoldim A) (fun jlen c =>
      f <- vget bc (jblk1 *n ncoldim A +n jlen) ;;
      if (f =? 0)%Z then Some c else
      forn 0 (nrowdim A) (fun ilen c => vset c (icrs *n blksize +n ilen *n nrowdim A +n jlen) 0) c) c) (val_crs A) ;;
  Some (mkM (nrowblk A) (ncolblk A) (nrowdim A) (ncoldim A) (col_ind A) (row_ptr A) c (val_dia A)).

(** ls_block_sparse.h:147-151. *)
Definition SetFixedBC (A : matsp K) (bc : list Z) : option (matsp K) :=
  A <- SetFixedBC_Dia A bc 1 ;; A <- SetFixedBC_Row A bc ;; SetFixedBC_Col A bc.

(** ls_block_sparse.cpp:481-502. *)
Definition ScaleBlk_LeftRight (A : matsp K) (scale : list K) : option (matsp K) :=
  assertb (ncolblk A =? nrowblk A)%nat ;;; assertb (ncoldim A =? nrowdim A)%nat ;;;
  let nblk := nrowblk A in let len := nrowdim A in let blksize := (len *n len)%nat in
  c <- forn 0 nblk (fun ino c =>
    lo <- vget (col_ind A) ino ;; hi <- vget (col_ind A) (ino +n 1) ;;
    forn lo hi (fun icrs0 c =>
      jno <- vget (row_ptr A) icrs0 ;;
      a <- vget scale ino ;; b <- vget scale jno ;;
      let s0 := a * b in
      forn 0 blksize (fun i c => vmod c (icrs0 *n blksize +n i) (fun t => t * s0)) c) c) (val_crs A) ;;
  d <- (if (length (val_dia A) =? 0)%nat then Some (val_dia A) else
    forn 0 nblk (fun ino d =>
      a <- vget scale ino ;;
      let s0 := a * a in
      forn 0 blksize (fun i d => vmod d (ino *n blksize +n i) (fun t => t * s0)) d) (val_dia A)) ;;
  Some (mkM (nrowblk A) (ncolblk A) (nrowdim A) (ncoldim A) (col_ind A) (row_ptr A) c d).

(** ls_block_sparse.cpp:504-533. *)
Definition ScaleBlkLen_LeftRight (A : matsp K) (scale : list K) : option (matsp K) :=
  assertb (ncolblk A =? nrowblk A)%nat ;;; assertb (ncoldim A =? nrowdim A)%nat ;;;
  let nblk := nrowblk A in let len := nrowdim A in let blksize := (len *n len)%nat in
  c <- forn 0 nblk (fun ino c =>
    lo <- vget (col_ind A) ino ;; hi <- vget (col_ind A) (ino +n 1) ;;
    forn lo hi (fun icrs0 c =>
      jno <- vget (row_ptr A) icrs0 ;;
      forn 0 len (fun ilen c => forn 0 len (fun jlen c =>
        a <- vget scale (ino *n len +n ilen) ;; b <- vget scale (jno *n len +n jlen) ;;
        vmod c (icrs0 *n blksize +n ilen *n len +n jlen) (fun t => t * (a * b))) c) c) c) (val_crs A) ;;
  d <- (if (length (val_dia A) =? 0)%nat then Some (val_dia A) else
    forn 0 nblk (fun ino d =>
      forn 0 len (fun ilen d => forn 0 len (fun jlen d =>
        a <- vget scale (ino *n len +n ilen) ;; b <- vget scale (ino *n len +n jlen) ;;
        vmod d (ino *n blksize +n ilen *n len +n jlen) (fun t => t * (a * b))) d) d) (val_dia A)) ;;
  Some (mkM (nrowblk A) (ncolblk A) (nrowdim A) (ncoldim A) (col_ind A) (row_ptr A) c d).

(** [for(i=0;i<blksize;i++){ pval_out[i] += pval_in[i]; }] with pval_out = &out[o], pval_in = &emat[e]. *)
Definition add_block (blksize : nat) (emat : list K) (e : nat) (out : list K) (o : nat) : option (list K) :=
  forn 0 blksize (fun i out => v <- vget emat (e +n i) ;; pluseq out (o +n i) v) out.

(** The common body of the three merge functions, ls_block_sparse.h:216-256, 274-308, 322-355.  [fill] is the value
    with which [merge_buffer.resize] extends the buffer (0 in Mearge and the 2-index Merge, UINT_MAX = [None] in the
    4-index Merge).  [emat] is the element matrix in row-major order, blocks of [blksize] numbers (the C++ arrays
    emat[nrow][ncol][ndimrow][ndimcol] and emat[nrow][ncol] have exactly this layout; the 2-index Merge has
    blksize = 1).  The result is the C++ return value, the matrix and the buffer.  [dbg]: assertions enabled. *)
Definition merge_core (dbg : bool) (fill : option nat) (A : matsp K) (aIpRow aIpCol : list nat) (blksize : nat)
    (emat : list K) (buf : list (option nat)) : option (bool * (matsp K * list (option nat))) :=
  asrt dbg (negb (length (val_crs A) =? 0))%nat ;;;
  asrt dbg (negb (length (val_dia A) =? 0))%nat ;;;
  let nrow := length aIpRow in let ncol := length aIpCol in
  let buf := vresize fill buf (ncolblk A) in
  '(ok, ((c, d), buf)) <- forb 0 nrow (fun irow s =>
      let '(_, ((c, d), buf)) := s in
      iblk1 <- vget aIpRow irow ;;
      asrt dbg (iblk1 <? nrowblk A)%nat ;;;
      lo <- vget (col_ind A) iblk1 ;; hi <- vget (col_ind A) (iblk1 +n 1) ;;
      buf <- forn lo hi (fun jpsup buf =>
          asrt dbg (jpsup <? length (row_ptr A))%nat ;;;
          jblk1 <- vget (row_ptr A) jpsup ;; vset buf jblk1 (Some jpsup)) buf ;;
      '(ok, (c, d)) <- forb 0 ncol (fun jcol s =>
          let '(_, (c, d)) := s in
          jblk1 <- vget aIpCol jcol ;;
          asrt dbg (jblk1 <? ncolblk A)%nat ;;;
          if (iblk1 =? jblk1)%nat then
            d <- add_block blksize emat ((irow *n ncol +n irow) *n blksize) d (iblk1 *n blksize) ;;
            Some ((true, (c, d)), false)
          else
            b <- vget buf jblk1 ;;
            match b with
            | None => asrt dbg false ;;; Some ((false, (c, d)), true)
            | Some jpsup1 =>
              asrt dbg (jpsup1 <? length (row_ptr A))%nat ;;;
              (if dbg then r <- vget (row_ptr A) jpsup1 ;; assertb (r =? jblk1)%nat else Some tt) ;;;
              c <- add_block blksize emat ((irow *n ncol +n jcol) *n blksize) c (jpsup1 *n blksize) ;;
              Some ((true, (c, d)), false)
            end) (true, (c, d)) ;;
      if ok : bool then
        buf <- forn lo hi (fun jpsup buf =>
          asrt dbg (jpsup <? length (row_ptr A))%nat ;;;
          jblk1 <- vget (row_ptr A) jpsup ;; vset buf jblk1 None) buf ;;
        Some ((true, ((c, d), buf)), false)
      else Some ((false, ((c, d), buf)), true)) (true, ((val_crs A, val_dia A), buf)) ;;
  Some (ok, (mkM (nrowblk A) (ncolblk A) (nrowdim A) (ncoldim A) (col_ind A) (row_ptr A) c d, buf)).

(** ls_block_sparse.h:208-258. *)
Definition Mearge (dbg : bool) (A : matsp K) (aIpRow aIpCol : list nat) (blksize : nat) (emat : list K)
    (buf : list (option nat)) : option (bool * (matsp K * list (option nat))) :=
  asrt dbg (blksize =? nrowdim A *n ncoldim A)%nat ;;;
  merge_core dbg (Some 0%nat) A aIpRow aIpCol blksize emat buf.
(** ls_block_sparse.h:260-310; ndimrow, ndimcol are template arguments. *)
Definition Merge4 (dbg : bool) (ndimrow ndimcol : nat) (A : matsp K) (aIpRow aIpCol : list nat) (emat : list K)
    (buf : list (option nat)) : option (bool * (matsp K * list (option nat))) :=
  merge_core dbg None A aIpRow aIpCol (ndimrow *n ndimcol)%nat emat buf.
(** ls_block_sparse.h:312-357. *)
Definition Merge2 (dbg : bool) (A : matsp K) (aIpRow aIpCol : list nat) (emat : list K)
    (buf : list (option nat)) : option (bool * (matsp K * list (option nat))) :=
  merge_core dbg (Some 0%nat) A aIpRow aIpCol 1 emat buf.

(** ls_block_sparse.cpp:15-28, MatNorm_Assym(V0,n0,m0,V1) on sub-arrays starting at o0, o1. *)
Definition MatNorm_Assym2 (V : list K) (o0 n0 m0 o1 : nat) : option K :=
  forn 0 n0 (fun i s => forn 0 m0 (fun j s =>
    v0 <- vget V (o0 +n (i *n m0 +n j)) ;; v1 <- vget V (o1 +n (j *n n0 +n i)) ;;
    Some (s + (v0 - v1) * (v0 - v1))) s) 0.
(** ls_block_sparse.cpp:31-42. *)
Definition MatNorm (V : list K) (o n m : nat) : option K :=
  forn 0 n (fun i s => forn 0 m (fun j s => v <- vget V (o +n (i *n m +n j)) ;; Some (s + v * v)) s) 0.
(** ls_block_sparse.cpp:45-57. *)
Definition MatNorm_Assym1 (V : list K) (o n : nat) : option K := MatNorm_Assym2 V o n n o.

(** ls_block_sparse.cpp:535-562. *)
Definition CheckSymmetry (A : matsp K) : option K :=
  assertb (ncolblk A =? nrowblk A)%nat ;;; assertb (ncoldim A =? nrowdim A)%nat ;;;
  let blksize := (nrowdim A *n ncoldim A)%nat in
  let nlen := nrowdim A in
  forn 0 (nrowblk A) (fun ino sum =>
    lo <- vget (col_ind A) ino ;; hi <- vget (col_ind A) (ino +n 1) ;;
    sum <- forn lo hi (fun icrs0 sum =>
        jno <- vget (row_ptr A) icrs0 ;;
        lo1 <- vget (col_ind A) jno ;; hi1 <- vget (col_ind A) (jno +n 1) ;;
        icrs1 <- forb lo1 hi1 (fun icrs1 _ =>
            r <- vget (row_ptr A) icrs1 ;;
            if (r =? ino)%nat then Some (icrs1, true) else Some (S icrs1, false)) lo1 ;;
        if (icrs1 =? hi1)%nat then
          t <- MatNorm (val_crs A) (blksize *n icrs0) (nrowdim A) (ncoldim A) ;; Some (sum + t)
        else
          t <- MatNorm_Assym2 (val_crs A) (blksize *n icrs0) (nrowdim A) (ncoldim A) (blksize *n icrs1) ;;
          Some (sum + t)) sum ;;
    t <- MatNorm_Assym1 (val_dia A) (blksize *n ino) nlen ;;
    Some (sum + t)) 0.
End Sp.
Arguments Initialize {K}. Arguments SetPattern {K}. Arguments setZero {K}. Arguments AddDia {K}.
Arguments MatVec {K}. Arguments MatVecDegenerate {K}. Arguments MatTVec {K}.
Arguments SetFixedBC {K}. Arguments ScaleBlk_LeftRight {K}. Arguments ScaleBlkLen_LeftRight {K}.
Arguments Mearge {K}. Arguments Merge4 {K}. Arguments Merge2 {K}. Arguments CheckSymmetry {K}.
