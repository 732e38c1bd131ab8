(** Model of /repo/include/delfem2/ls_masterslave.cpp: degrees of freedom that copy others.  [ms] is the array aMSFlag,
    UINT_MAX is [None].  Scalars are elements of a commutative ring; assertions are on. *)
From Coq Require Import List Arith Bool.
Import ListNotations.
From Verif Require Import Imp Alg SpModel JagModel.

(** ls_masterslave.cpp:14-25 *)
Definition setRHS_MasterSlave {K : cring} (vec_b : list K) (nDoF : nat) (ms : list (option nat)) : option (list K) :=
  forn 0 nDoF (fun idof b =>
    f <- vget ms idof ;;
    match f with
    | None => Some b
    | Some jdof => v <- vget b idof ;; b <- vmod b jdof (fun t => radd t v) ;; vset b idof (@rO K)
    end) vec_b.

(** ls_masterslave.cpp:38-48, the slaves of every node *)
Definition mapM2S (ms : list (option nat)) (nno ndim : nat) : option (list (list nat)) :=
  forn 0 nno (fun ino1 m => forn 0 ndim (fun idim1 m =>
    f <- vget ms (ino1 * ndim + idim1) ;;
    match f with
    | None => Some m
    | Some idof0 =>
      let ino0 := idof0 / ndim in
      assertb ((ino0 <? nno) && (idof0 <? ndim + ino0 * ndim)) ;;;
      assertb (idim1 + ino0 * ndim =? idof0) ;;;
      vmod m ino0 (fun l => l ++ [ino1])
    end) m) (repeat [] nno).

(** ls_masterslave.cpp:58-60, 64-67 and the like: if( aflg[jno] == ino0 ){ continue; } aflg[jno] = ino0; and an action *)
Definition mark {S} (g : nat * nat -> S -> option S) (ino0 jno : nat) (st : list (option nat) * S) : option (list (option nat) * S) :=
  let '(aflg, s) := st in
  t <- vget aflg jno ;;
  match t with
  | Some k => if k =? ino0 then Some (aflg, s) else aflg <- vset aflg jno (Some ino0) ;; s <- g (ino0, jno) s ;; Some (aflg, s)
  | None => aflg <- vset aflg jno (Some ino0) ;; s <- g (ino0, jno) s ;; Some (aflg, s)
  end.

(** ls_masterslave.cpp:55-85 and 94-132, the nodes visited for one row; the two passes differ in the action [g] only *)
Definition ms_row {S} (g : nat * nat -> S -> option S) (ms : list (option nat)) (ndim : nat) (psup_ind psup : list nat) (m2s : list (list nat))
    (ino0 : nat) (st : list (option nat) * S) : option (list (option nat) * S) :=
  let '(aflg, s) := st in
  aflg <- vset aflg ino0 (Some ino0) ;;
  st <- (lo <- vget psup_ind ino0 ;; hi <- vget psup_ind (ino0 + 1) ;;
    forn lo hi (fun icrs st => jno <- vget psup icrs ;; mark g ino0 jno st) (aflg, s)) ;;
  sl <- vget m2s ino0 ;;
  st <- forn 0 (length sl) (fun iino1 st =>
    ino1 <- vget sl iino1 ;;
    st <- mark g ino0 ino1 st ;;
    (lo <- vget psup_ind ino1 ;; hi <- vget psup_ind (ino1 + 1) ;;
    forn lo hi (fun jcrs st => jno1 <- vget psup jcrs ;; mark g ino0 jno1 st) st)) st ;;
  (lo <- vget psup_ind ino0 ;; hi <- vget psup_ind (ino0 + 1) ;;
  forn lo hi (fun icrs st => jno <- vget psup icrs ;;
    forn 0 ndim (fun jdim st =>
      f <- vget ms (jno * ndim + jdim) ;;
      match f with None => Some st | Some kdof => mark g ino0 (kdof / ndim) st end) st) st).

(** ls_masterslave.cpp:27-137 *)
Definition JArray_AddMasterSlavePattern (ms : list (option nat)) (ndim : nat) (psup_ind0 psup0 : list nat) : option (list nat * list nat) :=
  assertb (0 <? length psup_ind0) ;;;
  let nno := length psup_ind0 - 1 in
  m2s <- mapM2S ms nno ndim ;;
  '(aflg, index) <- forn 0 nno (ms_row (fun p => count1 (fst p)) ms ndim psup_ind0 psup0 m2s) (repeat None nno, repeat 0 (nno + 1)) ;;
  index <- prefix_sum nno index ;;
  narray <- vget index nno ;;
  let array := vresize 0 [] narray in
  aflg <- forn 0 nno (fun ino aflg => vset aflg ino None) aflg ;;
  '(aflg, (index, array)) <- forn 0 nno (ms_row (fun p => put1 (fst p) (snd p)) ms ndim psup_ind0 psup0 m2s) (aflg, (index, array)) ;;
  index <- shift_down nno index ;;
  Some (index, array).

Section Mat.
Context {K : cring}.
Local Open Scope K_scope.
Local Notation "x +n y" := (Nat.add x y) (at level 50, left associativity).
Local Notation "x *n y" := (Nat.mul x y) (at level 40, left associativity).

(** ls_masterslave.cpp:163-167, 203-207: row2crs[row_ptr[icrs]] = icrs over a row; and ls_masterslave.cpp:194-198, 244-248 with UINT_MAX *)
Definition ms_mark (A : matsp K) (ino : nat) (row2crs : list (option nat)) : option (list (option nat)) :=
  lo <- vget (col_ind A) ino ;; hi <- vget (col_ind A) (ino +n 1) ;;
  forn lo hi (fun icrs b => jno <- vget (row_ptr A) icrs ;; assertb (jno <? nrowblk A)%nat ;;; vset b jno (Some icrs)) row2crs.
Definition ms_unmark (A : matsp K) (ino : nat) (row2crs : list (option nat)) : option (list (option nat)) :=
  lo <- vget (col_ind A) ino ;; hi <- vget (col_ind A) (ino +n 1) ;;
  forn lo hi (fun icrs b => jno <- vget (row_ptr A) icrs ;; assertb (jno <? nrowblk A)%nat ;;; vset b jno None) row2crs.

(** ls_masterslave.cpp:173-174, 187-188, 213-214, 235-236: icrs0 = row2crs[jno]; assert(icrs0 < row_ptr.size()) *)
Definition ms_find (A : matsp K) (row2crs : list (option nat)) (jno : nat) : option nat :=
  q <- vget row2crs jno ;;
  match q with None => None | Some icrs0 => assertb (icrs0 <? length (row_ptr A))%nat ;;; Some icrs0 end.

(** ls_masterslave.cpp:149-199: the row of every slave is added to the row of its master *)
Definition ms_rows (A : matsp K) (ms : list (option nat)) : option (list K * list K) :=
  let len := nrowdim A in let nblk := nrowblk A in let blksize := (len *n len)%nat in
  '(c, d, _) <- forn 0 (nblk *n len) (fun idof1 st =>
    let '(c, d, buf) := st in
    f <- vget ms idof1 ;;
    match f with
    | None => Some st
    | Some idof0 =>
      let ino0 := (idof0 / len)%nat in let ilen0 := (idof0 - ino0 *n len)%nat in
      assertb (ilen0 <? len)%nat ;;; assertb (ino0 <? nblk)%nat ;;;
      let ino1 := (idof1 / len)%nat in let ilen1 := (idof1 - ino1 *n len)%nat in
      assertb ((ino1 <? nblk) && (ilen1 <? len))%nat ;;;
      assertb (ilen0 =? ilen1)%nat ;;;
      buf <- ms_mark A ino0 buf ;;
      lo <- vget (col_ind A) ino1 ;; hi <- vget (col_ind A) (ino1 +n 1) ;;
      '(c, d) <- forn lo hi (fun icrs1 st =>
        let '(c, d) := st in
        jno1 <- vget (row_ptr A) icrs1 ;;
        assertb (jno1 <? nblk)%nat ;;;
        assertb (negb (jno1 =? ino1))%nat ;;;
        if negb (jno1 =? ino0)%nat then
          icrs0 <- ms_find A buf jno1 ;;
          c <- forn 0 len (fun jdim c => v <- vget c (icrs1 *n blksize +n ilen1 *n len +n jdim) ;; vmod c (icrs0 *n blksize +n ilen0 *n len +n jdim) (fun t => t + v)) c ;;
          Some (c, d)
        else
          d <- forn 0 len (fun jdim d => v <- vget c (icrs1 *n blksize +n ilen1 *n len +n jdim) ;; vmod d (ino0 *n blksize +n ilen0 *n len +n jdim) (fun t => t + v)) d ;;
          Some (c, d)) (c, d) ;;
      icrs0 <- ms_find A buf ino1 ;;
      c <- forn 0 len (fun jdim c => v <- vget d (ino1 *n blksize +n ilen1 *n len +n jdim) ;; vmod c (icrs0 *n blksize +n ilen0 *n len +n jdim) (fun t => t + v)) c ;;
      buf <- ms_unmark A ino0 buf ;;
      Some (c, d, buf)
    end) (val_crs A, val_dia A, repeat None nblk) ;;
  Some (c, d).

(** ls_masterslave.cpp:201-249: in every row, the column of every slave is added to the column of its master *)
Definition ms_cols (A : matsp K) (ms : list (option nat)) (c d : list K) : option (list K * list K) :=
  let len := nrowdim A in let nblk := nrowblk A in let blksize := (len *n len)%nat in
  '(c, d, _) <- forn 0 nblk (fun ino st =>
    let '(c, d, buf) := st in
    buf <- ms_mark A ino buf ;;
    c <- forn 0 len (fun jlen1 c =>
      f <- vget ms (ino *n len +n jlen1) ;;
      match f with
      | None => Some c
      | Some jdof0 =>
        let jno0 := (jdof0 / len)%nat in
        assertb (jdof0 - jno0 *n len =? jlen1)%nat ;;;
        icrs0 <- ms_find A buf jno0 ;;
        forn 0 len (fun ilen c => v <- vget d (ino *n blksize +n ilen *n len +n jlen1) ;; vmod c (icrs0 *n blksize +n ilen *n len +n jlen1) (fun t => t + v)) c
      end) c ;;
    lo <- vget (col_ind A) ino ;; hi <- vget (col_ind A) (ino +n 1) ;;
    '(c, d) <- forn lo hi (fun icrs1 st =>
      jno1 <- vget (row_ptr A) icrs1 ;;
      assertb (jno1 <? nblk)%nat ;;;
      forn 0 len (fun jlen1 st =>
        let '(c, d) := st in
        f <- vget ms (jno1 *n len +n jlen1) ;;
        match f with
        | None => Some (c, d)
        | Some jdof0 =>
          let jno0 := (jdof0 / len)%nat in
          assertb (jno0 <? nblk)%nat ;;;
          assertb (jdof0 - jno0 *n len =? jlen1)%nat ;;;
          if (ino =? jno0)%nat then
            d <- forn 0 len (fun ilen d => v <- vget c (icrs1 *n blksize +n ilen *n len +n jlen1) ;; vmod d (jno0 *n blksize +n ilen *n len +n jlen1) (fun t => t + v)) d ;;
            Some (c, d)
          else
            icrs0 <- ms_find A buf jno0 ;;
            c <- forn 0 len (fun ilen c => v <- vget c (icrs1 *n blksize +n ilen *n len +n jlen1) ;; vmod c (icrs0 *n blksize +n ilen *n len +n jlen1) (fun t => t + v)) c ;;
            Some (c, d)
        end) st) (c, d) ;;
    buf <- ms_unmark A ino buf ;;
    Some (c, d, buf)) (c, d, repeat None nblk) ;;
  Some (c, d).

(** ls_masterslave.cpp:251-260: diagonal blocks of slaves *)
Definition ms_dia (A : matsp K) (ms : list (option nat)) (d : list K) : option (list K) :=
  let len := nrowdim A in let blksize := (len *n len)%nat in
  forn 0 (nrowblk A) (fun iblk d => forn 0 len (fun ilen d =>
    f <- vget ms (iblk *n len +n ilen) ;;
    match f with
    | None => Some d
    | Some _ =>
      d <- forn 0 len (fun jlen d =>
        d <- vset d (iblk *n blksize +n ilen *n len +n jlen) 0 ;;
        vset d (iblk *n blksize +n jlen *n len +n ilen) 0) d ;;
      vset d (iblk *n blksize +n ilen *n len +n ilen) 1
    end) d) d.

(** ls_masterslave.cpp:262-276: rows of slaves (what is written first is overwritten) *)
Definition ms_zrow (A : matsp K) (ms : list (option nat)) (c : list K) : option (list K) :=
  let len := nrowdim A in let blksize := (len *n len)%nat in
  forn 0 (nrowblk A) (fun iblk c =>
    lo <- vget (col_ind A) iblk ;; hi <- vget (col_ind A) (iblk +n 1) ;;
    forn lo hi (fun icrs c => forn 0 len (fun idim c =>
      f <- vget ms (iblk *n len +n idim) ;;
      match f with
      | None => Some c
      | Some idof0 =>
        jblk <- vget (row_ptr A) icrs ;;
        forn 0 len (fun jdim c =>
          c <- vset c (icrs *n blksize +n idim *n len +n jdim) (if (idof0 =? jblk *n len +n jdim)%nat then - (1) else 0) ;;
          vset c (icrs *n blksize +n idim *n len +n jdim) 0) c
      end) c) c) c.

(** ls_masterslave.cpp:278-292: columns of slaves *)
Definition ms_zcol (A : matsp K) (ms : list (option nat)) (c : list K) : option (list K) :=
  let len := nrowdim A in let blksize := (len *n len)%nat in
  forn 0 (nrowblk A) (fun iblk c =>
    lo <- vget (col_ind A) iblk ;; hi <- vget (col_ind A) (iblk +n 1) ;;
    forn lo hi (fun icrs c =>
      jblk1 <- vget (row_ptr A) icrs ;;
      forn 0 len (fun jdim c =>
        f <- vget ms (jblk1 *n len +n jdim) ;;
        match f with
        | None => Some c
        | Some idof0 =>
          forn 0 len (fun idim c =>
            c <- vset c (icrs *n blksize +n idim *n len +n jdim) (if (idof0 =? iblk *n len +n idim)%nat then - (1) else 0) ;;
            vset c (icrs *n blksize +n idim *n len +n jdim) 0) c
        end) c) c) c.

(** ls_masterslave.cpp:140-293, SetMasterSlave *)
Definition SetMasterSlave (A : matsp K) (ms : list (option nat)) : option (matsp K) :=
  assertb (negb (length (val_dia A) =? 0))%nat ;;;
  assertb (ncolblk A =? nrowblk A)%nat ;;; assertb (ncoldim A =? nrowdim A)%nat ;;;
  '(c, d) <- ms_rows A ms ;;
  '(c, d) <- ms_cols A ms c d ;;
  d <- ms_dia A ms d ;;
  c <- ms_zrow A ms c ;;
  c <- ms_zcol A ms c ;;
  Some (mkM (nrowblk A) (ncolblk A) (nrowdim A) (ncoldim A) (col_ind A) (row_ptr A) c d).
End Mat.
