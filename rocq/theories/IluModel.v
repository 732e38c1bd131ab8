(** Model of /repo/include/delfem2/ls_ilu_block_sparse.{h,cpp}: CPreconditionerILU<T>.  Scalars are exact (a commutative ring with a partial reciprocal); assertions are on.
    Decompose is modelled for T = double and, for 1x1 blocks, T = complex<double>; the copy constructor (cpp:133-143, refers to a member that does not exist) is not modelled. *)
From Coq Require Import List Arith Bool ZArith.
Import ListNotations.
From Verif Require Import Imp Alg SpModel.

(** ls_ilu_block_sparse.h:59-66, the data members *)
Record ilu (K : cring) := mkI { nblk : nat; ndim : nat; colInd : list nat; rowPtr : list nat; diaInd : list nat; valCrs : list K; valDia : list K }.
Arguments mkI {K}. Arguments nblk {K}. Arguments ndim {K}. Arguments colInd {K}. Arguments rowPtr {K}. Arguments diaInd {K}. Arguments valCrs {K}. Arguments valDia {K}.

(** Scalars with a partial reciprocal ([1.0/x]) and the tests of the code: [large x]: fabs(x) > 1.0e-30, [small x]: fabs(x) < 1.0e-30, [isneg x]: x < 0.0.
    The only law: a number that passes a test has a reciprocal. *)
Record pfield := mkPF {
  pK :> cring; recip : pK -> option pK; large : pK -> bool; small : pK -> bool; isneg : pK -> bool;
  recip_large : forall x, large x = true -> exists y, recip x = Some y /\ rmul x y = rI;
  recip_small : forall x, small x = false -> exists y, recip x = Some y /\ rmul x y = rI }.
Arguments recip {_}. Arguments large {_}. Arguments small {_}. Arguments isneg {_}.

Section Subst.
Variable K : cring.
Local Open Scope K_scope.
Local Notation "x +n y" := (Nat.add x y) (at level 50, left associativity).
Local Notation "x *n y" := (Nat.mul x y) (at level 40, left associativity).

(** [t[i] -= v] *)
Definition minuseq (t : list K) (i : nat) (v : K) : option (list K) := vmod t i (fun x => x - v).

(** The loops common to the branches of ForwardSubstitution, ls_ilu_block_sparse.cpp:507-516, 525-544, 553-576, 585-611, 615-641 (and 659-673): copy block iblk into a temporary [load], subtract the stored blocks times the vector [sub], multiply by the diagonal block and write back [store]. *)
Definition forward (load : list K -> nat -> option (list K)) (sub : nat -> nat -> list K -> list K -> option (list K)) (store : nat -> list K -> list K -> option (list K))
    (P : ilu K) (vec : list K) : option (list K) :=
  forn 0 (nblk P) (fun iblk vec =>
    tmp <- load vec iblk ;;
    icrs0 <- vget (colInd P) iblk ;; icrs1 <- vget (diaInd P) iblk ;;
    tmp <- forn icrs0 icrs1 (fun ijcrs tmp =>
      assertb (ijcrs <? length (rowPtr P))%nat ;;;
      jblk0 <- vget (rowPtr P) ijcrs ;;
      assertb (jblk0 <? iblk)%nat ;;;
      sub ijcrs jblk0 vec tmp) tmp ;;
    store iblk tmp vec) vec.
(** The same for BackwardSubstitution, ls_ilu_block_sparse.cpp:685-696, 703-722, 729-753, 760-788, 792-813 (and 839-853): from the last block to the first; the write back is a copy. *)
Definition backward (load : list K -> nat -> option (list K)) (sub : nat -> nat -> list K -> list K -> option (list K)) (store : nat -> list K -> list K -> option (list K))
    (P : ilu K) (vec : list K) : option (list K) :=
  ford (nblk P) 0 (fun i1 vec =>
    let iblk := (i1 - 1)%nat in
    assertb (iblk <? nblk P)%nat ;;;
    tmp <- load vec iblk ;;
    icrs0 <- vget (diaInd P) iblk ;; icrs1 <- vget (colInd P) (iblk +n 1) ;;
    tmp <- forn icrs0 icrs1 (fun ijcrs tmp =>
      assertb (ijcrs <? length (rowPtr P))%nat ;;;
      jblk0 <- vget (rowPtr P) ijcrs ;;
      assertb ((iblk <? jblk0) && (jblk0 <? nblk P))%nat ;;;
      sub ijcrs jblk0 vec tmp) tmp ;;
    store iblk tmp vec) vec.

(** Temporaries: cpp:508 (a scalar, here a list of length one), 526-527, 554-556, 586-589, 617-619 *)
Definition load1 (vec : list K) (i : nat) : option (list K) := a <- vget vec i ;; Some [a].
Definition load2 (vec : list K) (i : nat) : option (list K) := a <- vget vec (i *n 2 +n 0) ;; b <- vget vec (i *n 2 +n 1) ;; Some [a; b].
Definition load3 (vec : list K) (i : nat) : option (list K) := a <- vget vec (i *n 3 +n 0) ;; b <- vget vec (i *n 3 +n 1) ;; c <- vget vec (i *n 3 +n 2) ;; Some [a; b; c].
Definition load4 (vec : list K) (i : nat) : option (list K) :=
  a <- vget vec (i *n 4 +n 0) ;; b <- vget vec (i *n 4 +n 1) ;; c <- vget vec (i *n 4 +n 2) ;; d <- vget vec (i *n 4 +n 3) ;; Some [a; b; c; d].
Definition loadn (n : nat) (vec : list K) (i : nat) : option (list K) :=
  forn 0 n (fun idof tmp => a <- vget vec (i *n n +n idof) ;; vset tmp idof a) (repeat 0 n).
(** cpp:513, 536-539, 565-570, 599-607, 625-629 and the same lines of BackwardSubstitution *)
Definition sub1 (vcrs : list K) (c j : nat) (vec tmp : list K) : option (list K) := v <- vget vcrs c ;; x <- vget vec j ;; minuseq tmp 0 (v * x).
Definition sub2 (vcrs : list K) (c j : nat) (vec tmp : list K) : option (list K) :=
  r <- row2 K vcrs (c *n 4) vec (j *n 2) ;; tmp <- minuseq tmp 0 r ;;
  r <- row2 K vcrs (c *n 4 +n 2) vec (j *n 2) ;; minuseq tmp 1 r.
Definition sub3 (vcrs : list K) (c j : nat) (vec tmp : list K) : option (list K) :=
  r <- row3 K vcrs (c *n 9) vec (j *n 3) ;; tmp <- minuseq tmp 0 r ;;
  r <- row3 K vcrs (c *n 9 +n 3) vec (j *n 3) ;; tmp <- minuseq tmp 1 r ;;
  r <- row3 K vcrs (c *n 9 +n 6) vec (j *n 3) ;; minuseq tmp 2 r.
Definition sub4 (vcrs : list K) (c j : nat) (vec tmp : list K) : option (list K) :=
  r <- row4 K vcrs (c *n 16) vec (j *n 4) ;; tmp <- minuseq tmp 0 r ;;
  r <- row4 K vcrs (c *n 16 +n 4) vec (j *n 4) ;; tmp <- minuseq tmp 1 r ;;
  r <- row4 K vcrs (c *n 16 +n 8) vec (j *n 4) ;; tmp <- minuseq tmp 2 r ;;
  r <- row4 K vcrs (c *n 16 +n 12) vec (j *n 4) ;; minuseq tmp 3 r.
Definition subn (n : nat) (vcrs : list K) (c j : nat) (vec tmp : list K) : option (list K) :=
  forn 0 n (fun idof tmp =>
    forn 0 n (fun jdof tmp =>
      v <- vget vcrs (c *n (n *n n) +n (idof *n n +n jdof)) ;; x <- vget vec (j *n n +n jdof) ;; minuseq tmp idof (v * x)) tmp) tmp.
(** cpp:515, 541-543, 572-575, 609-613, 632-639 *)
Definition mstore1 (vdia : list K) (i : nat) (tmp vec : list K) : option (list K) := v <- vget vdia i ;; x <- vget tmp 0 ;; vset vec i (v * x).
Definition mstore2 (vdia : list K) (i : nat) (tmp vec : list K) : option (list K) :=
  r <- row2 K vdia (i *n 4) tmp 0 ;; vec <- vset vec (i *n 2 +n 0) r ;;
  r <- row2 K vdia (i *n 4 +n 2) tmp 0 ;; vset vec (i *n 2 +n 1) r.
Definition mstore3 (vdia : list K) (i : nat) (tmp vec : list K) : option (list K) :=
  r <- row3 K vdia (i *n 9) tmp 0 ;; vec <- vset vec (i *n 3 +n 0) r ;;
  r <- row3 K vdia (i *n 9 +n 3) tmp 0 ;; vec <- vset vec (i *n 3 +n 1) r ;;
  r <- row3 K vdia (i *n 9 +n 6) tmp 0 ;; vset vec (i *n 3 +n 2) r.
Definition mstore4 (vdia : list K) (i : nat) (tmp vec : list K) : option (list K) :=
  r <- row4 K vdia (i *n 16) tmp 0 ;; vec <- vset vec (i *n 4 +n 0) r ;;
  r <- row4 K vdia (i *n 16 +n 4) tmp 0 ;; vec <- vset vec (i *n 4 +n 1) r ;;
  r <- row4 K vdia (i *n 16 +n 8) tmp 0 ;; vec <- vset vec (i *n 4 +n 2) r ;;
  r <- row4 K vdia (i *n 16 +n 12) tmp 0 ;; vset vec (i *n 4 +n 3) r.
Definition mstoren (n : nat) (vdia : list K) (i : nat) (tmp vec : list K) : option (list K) :=
  forn 0 n (fun idof vec =>
    dtmp1 <- forn 0 n (fun jdof s => v <- vget vdia (i *n (n *n n) +n (idof *n n +n jdof)) ;; x <- vget tmp jdof ;; Some (s + v * x)) 0 ;;
    vset vec (i *n n +n idof) dtmp1) vec.
(** cpp:694, 720-721, 750-752, 784-787, 809-811 *)
Definition cstore1 (i : nat) (tmp vec : list K) : option (list K) := x <- vget tmp 0 ;; vset vec i x.
Definition cstore2 (i : nat) (tmp vec : list K) : option (list K) :=
  x <- vget tmp 0 ;; vec <- vset vec (i *n 2 +n 0) x ;; x <- vget tmp 1 ;; vset vec (i *n 2 +n 1) x.
Definition cstore3 (i : nat) (tmp vec : list K) : option (list K) :=
  x <- vget tmp 0 ;; vec <- vset vec (i *n 3 +n 0) x ;; x <- vget tmp 1 ;; vec <- vset vec (i *n 3 +n 1) x ;; x <- vget tmp 2 ;; vset vec (i *n 3 +n 2) x.
Definition cstore4 (i : nat) (tmp vec : list K) : option (list K) :=
  x <- vget tmp 0 ;; vec <- vset vec (i *n 4 +n 0) x ;; x <- vget tmp 1 ;; vec <- vset vec (i *n 4 +n 1) x ;;
  x <- vget tmp 2 ;; vec <- vset vec (i *n 4 +n 2) x ;; x <- vget tmp 3 ;; vset vec (i *n 4 +n 3) x.
Definition cstoren (n : nat) (i : nat) (tmp vec : list K) : option (list K) :=
  forn 0 n (fun idof vec => x <- vget tmp idof ;; vset vec (i *n n +n idof) x) vec.

(** ls_ilu_block_sparse.cpp:499-643 *)
Definition ForwardSubstitution (P : ilu K) (vec : list K) : option (list K) :=
  match ndim P with
  | 1 => forward load1 (sub1 (valCrs P)) (mstore1 (valDia P)) P vec
  | 2 => forward load2 (sub2 (valCrs P)) (mstore2 (valDia P)) P vec
  | 3 => forward load3 (sub3 (valCrs P)) (mstore3 (valDia P)) P vec
  | 4 => forward load4 (sub4 (valCrs P)) (mstore4 (valDia P)) P vec
  | n => forward (loadn n) (subn n (valCrs P)) (mstoren n (valDia P)) P vec
  end.
(** ls_ilu_block_sparse.cpp:677-815 *)
Definition BackwardSubstitution (P : ilu K) (vec : list K) : option (list K) :=
  match ndim P with
  | 1 => backward load1 (sub1 (valCrs P)) cstore1 P vec
  | 2 => backward load2 (sub2 (valCrs P)) cstore2 P vec
  | 3 => backward load3 (sub3 (valCrs P)) cstore3 P vec
  | 4 => backward load4 (sub4 (valCrs P)) cstore4 P vec
  | n => backward (loadn n) (subn n (valCrs P)) (cstoren n) P vec
  end.
(** ls_ilu_block_sparse.h:43-46 *)
Definition SolvePrecond (P : ilu K) (vec : list K) : option (list K) := v <- ForwardSubstitution P vec ;; BackwardSubstitution P v.

(** cpp:668-670, 672-674, 851-853 *)
Definition subdeg (N : nat) (vcrs : list K) (c j : nat) (vec buff : list K) : option (list K) :=
  forn 0 N (fun i buff => v <- vget vcrs c ;; x <- vget vec (j *n N +n i) ;; minuseq buff i (v * x)) buff.
Definition mstoredeg (N : nat) (vdia : list K) (i : nat) (buff vec : list K) : option (list K) :=
  forn 0 N (fun k vec => v <- vget vdia i ;; x <- vget buff k ;; vset vec (i *n N +n k) (v * x)) vec.
(** ls_ilu_block_sparse.cpp:646-676; memcpy is [loadn] *)
Definition ForwardSubstitutionDegenerate (P : ilu K) (vec : list K) (N : nat) : option (list K) :=
  assertb (ndim P =? 1)%nat ;;; forward (loadn N) (subdeg N (valCrs P)) (mstoredeg N (valDia P)) P vec.
(** ls_ilu_block_sparse.cpp:827-855 *)
Definition BackwardSubstitutionDegenerate (P : ilu K) (vec : list K) (N : nat) : option (list K) :=
  assertb (ndim P =? 1)%nat ;;; backward (loadn N) (subdeg N (valCrs P)) (cstoren N) P vec.

(** std::sort on a range: the ascending permutation *)
Fixpoint ins (x : nat) (l : list nat) : list nat := match l with [] => [x] | y :: l' => if (x <=? y)%nat then x :: l else y :: ins x l' end.
Definition sortn (l : list nat) : list nat := fold_right ins [] l.
Definition sort_range (l : list nat) (b e : nat) : list nat := firstn b l ++ sortn (firstn (e - b) (skipn b l)) ++ skipn e l.
(** cpp:870-877 and 1066-1072 *)
Definition sort_rows (n : nat) (colind rowptr : list nat) : option (list nat) :=
  forn 0 n (fun iblk rowptr => icrs0 <- vget colind iblk ;; icrs1 <- vget colind (iblk +n 1) ;; Some (sort_range rowptr icrs0 icrs1)) rowptr.

(** ls_ilu_block_sparse.cpp:1053-1089 *)
Definition SetPattern0 (P : ilu K) (m : matsp K) : option (ilu K) :=
  let nblk := nrowblk m in
  let ndim := nrowdim m in
  let colInd := col_ind m in
  let rowPtr := row_ptr m in
  let valCrs := vresize 0 (valCrs P) (length rowPtr *n ndim *n ndim) in
  let valDia := vresize 0 (valDia P) (nblk *n ndim *n ndim) in
  rowPtr <- sort_rows nblk colInd rowPtr ;;
  let diaInd := vresize 0%nat (diaInd P) nblk in
  diaInd <- forn 0 nblk (fun iblk diaInd =>
    hi <- vget colInd (iblk +n 1) ;; diaInd <- vset diaInd iblk hi ;;
    lo <- vget colInd iblk ;;
    forb lo hi (fun icrs diaInd =>
      assertb (icrs <? length rowPtr)%nat ;;;
      jblk0 <- vget rowPtr icrs ;;
      assertb (jblk0 <? nblk)%nat ;;;
      if (iblk <? jblk0)%nat then d <- vset diaInd iblk icrs ;; Some (d, true) else Some (diaInd, false)) diaInd) diaInd ;;
  Some (mkI nblk ndim colInd rowPtr diaInd valCrs valDia).

(** cpp:112-120 CRowLevNext; UINT_MAX is [None] *)
Record rln := mkR { row : nat; lev : nat; next : option nat }.
(** The test [(int)lev + 1 > lev_fill && lev_fill != -1]; -1 is [None] *)
Definition too_deep (lev : nat) (lev_fill : option nat) : bool := match lev_fill with None => false | Some l => (l <? lev +n 1)%nat end.
Definition set_next (l : list rln) (i : nat) (n : option nat) : option (list rln) := vmod l i (fun r => mkR (row r) (lev r) n).
(** cpp:921-938: find the place of column jblk0; the result (jnz_cur, is_fill_in) *)
Definition find_place (fuel nblk : nat) (listNonzero : list rln) (jnz_cur jblk0 : nat) : option (nat * bool) :=
  loopf fuel (fun '(jnz_cur, fill) =>
    r <- vget listNonzero jnz_cur ;;
    match next r with
    | None => Some ((jnz_cur, true), true)
    | Some jnz_nex =>
        assertb (jnz_nex <? nblk)%nat ;;;
        q <- vget listNonzero jnz_nex ;;
        if (jblk0 <? row q)%nat then Some ((jnz_cur, true), true) else
        if (row q =? jblk0)%nat then Some ((jnz_cur, fill), true) else
        assertb (row q <? jblk0)%nat ;;;
        Some ((jnz_nex, fill), false)
    end) (jnz_cur, false).
(** cpp:911-950: the fill-ins that row kblk0 makes in row iblk; aRowLev is a list of (row, lev) *)
Definition fill_row (fuel nblk iblk kblk0 ik_lev0 knz_cur lo hi : nat) (lev_fill : option nat) (aRowLev : list (nat * nat)) (listNonzero : list rln) : option (nat * list rln) :=
  forn lo hi (fun kjcrs '(jnz_cur, listNonzero) =>
    '(jblk0, kj_lev0) <- vget aRowLev kjcrs ;;
    if too_deep kj_lev0 lev_fill then Some (jnz_cur, listNonzero) else
    assertb ((kblk0 <? jblk0) && (jblk0 <? nblk))%nat ;;;
    r <- vget listNonzero jnz_cur ;;
    assertb (row r <? jblk0)%nat ;;;
    if (jblk0 =? iblk)%nat then Some (jnz_cur, listNonzero) else
    '(jnz_cur, is_fill_in) <- find_place fuel nblk listNonzero jnz_cur jblk0 ;;
    if negb is_fill_in then Some (jnz_cur, listNonzero) else
    let max_lev0 := if (kj_lev0 <? ik_lev0)%nat then ik_lev0 else kj_lev0 in
    let inz_last := length listNonzero in
    r <- vget listNonzero jnz_cur ;;
    let listNonzero := listNonzero ++ [mkR jblk0 (max_lev0 +n 1) (next r)] in
    listNonzero <- set_next listNonzero jnz_cur (Some inz_last) ;;
    Some (inz_last, listNonzero)) (knz_cur, listNonzero).
(** cpp:896-954: all fill-ins of row iblk *)
Definition fill_all (fuel nblk iblk : nat) (lev_fill : option nat) (colInd diaInd : list nat) (aRowLev : list (nat * nat)) (listNonzero : list rln) : option (list rln) :=
  '(_, listNonzero) <- loopf fuel (fun '(knz_cur, listNonzero) =>
    r <- vget listNonzero knz_cur ;;
    let kblk0 := row r in
    assertb (kblk0 <? nblk)%nat ;;;
    let ik_lev0 := lev r in
    if too_deep ik_lev0 lev_fill then
      match next r with None => Some ((knz_cur, listNonzero), true) | Some k => Some ((k, listNonzero), false) end
    else if (iblk <=? kblk0)%nat then Some ((knz_cur, listNonzero), true) else
    lo <- vget diaInd kblk0 ;;
    hi <- vget colInd (kblk0 +n 1) ;;
    '(_, listNonzero) <- fill_row fuel nblk iblk kblk0 ik_lev0 knz_cur lo hi lev_fill aRowLev listNonzero ;;
    r <- vget listNonzero knz_cur ;;
    match next r with
    | None => Some ((knz_cur, listNonzero), true)
    | Some k => assertb (k <? nblk)%nat ;;; Some ((k, listNonzero), false)
    end) (0%nat, listNonzero) ;;
  Some listNonzero.
(** ls_ilu_block_sparse.cpp:849-991.  The loops without bound get [fuel] iterations; running out counts as no result.  The result of the body: (colInd, diaInd, rowPtr, aRowLev) *)
Definition Initialize_levels (P : ilu K) (m : matsp K) (lev_fill : option nat) : option (ilu K) :=
    assertb (nrowblk m =? ncolblk m)%nat ;;;
    assertb (nrowdim m =? ncoldim m)%nat ;;;
    let nblk := nrowblk m in
    let ndim := nrowdim m in
    let fuel := S nblk in
    let colInd := vresize 0%nat (colInd P) (nblk +n 1) in
    let valDia := vresize 0 (valDia P) (nblk *n ndim *n ndim) in
    tmpRowPtr <- sort_rows nblk (col_ind m) (row_ptr m) ;;
    assertb (negb (length (val_dia m) =? 0)%nat) ;;;
    let diaInd := vresize 0%nat (diaInd P) nblk in
    '(colInd, diaInd, rowPtr, aRowLev) <- forn 0 nblk (fun iblk '(colInd, diaInd, rowPtr, aRowLev) =>
      hi <- vget (col_ind m) (iblk +n 1) ;;
      lo <- vget (col_ind m) iblk ;;
      '(inz, listNonzero) <- forn lo hi (fun ijcrs '(inz, l) =>
        assertb (ijcrs <? length tmpRowPtr)%nat ;;;
        jblk0 <- vget tmpRowPtr ijcrs ;;
        assertb (jblk0 <? nblk)%nat ;;;
        l <- vset l inz (mkR jblk0 0 (Some (inz +n 1)%nat)) ;;
        Some ((inz +n 1)%nat, l)) (0%nat, repeat (mkR 0 0 None) (hi - lo)) ;;
      assertb (1 <=? inz)%nat ;;;
      listNonzero <- set_next listNonzero (inz - 1) None ;;
      listNonzero <- fill_all fuel nblk iblk lev_fill colInd diaInd aRowLev listNonzero ;;
      icrs0 <- vget colInd iblk ;;
      let aRowLev := vresize (0%nat, 0%nat) aRowLev (icrs0 +n length listNonzero) in
      '(_, icrs0, aRowLev) <- loopf fuel (fun '(inz, icrs0, aRowLev) =>
        r <- vget listNonzero inz ;;
        assertb (row r <? nblk)%nat ;;;
        assertb (negb (row r =? iblk)%nat) ;;;
        aRowLev <- vset aRowLev icrs0 (row r, lev r) ;;
        match next r with
        | None => Some ((inz, (icrs0 +n 1)%nat, aRowLev), true)
        | Some k => Some ((k, (icrs0 +n 1)%nat, aRowLev), false)
        end) (0%nat, icrs0, aRowLev) ;;
      colInd <- vset colInd (iblk +n 1) icrs0 ;;
      let rowPtr := vresize 0%nat rowPtr icrs0 in
      diaInd <- vset diaInd iblk icrs0 ;;
      lo <- vget colInd iblk ;;
      diaInd <- forb lo icrs0 (fun ijcrs diaInd =>
        '(jblk0, _) <- vget aRowLev ijcrs ;;
        if (iblk <? jblk0)%nat then d <- vset diaInd iblk ijcrs ;; Some (d, true) else Some (diaInd, false)) diaInd ;;
      Some (colInd, diaInd, rowPtr, aRowLev)) (colInd, diaInd, [], []) ;;
    let ncrs := length rowPtr in
    assertb (length aRowLev =? ncrs)%nat ;;;
    rowPtr <- forn 0 ncrs (fun icrs rowPtr => '(r, _) <- vget aRowLev icrs ;; vset rowPtr icrs r) rowPtr ;;
    let valCrs := repeat 0 (ncrs *n (ndim *n ndim)) in
    assertb (negb (length valDia =? 0)%nat) ;;;
    Some (mkI nblk ndim colInd rowPtr diaInd valCrs (val_dia m)).

(** cpp:855-860: level 0 takes SetPattern0 *)
Definition Initialize_ILUk (P : ilu K) (m : matsp K) (lev_fill : option nat) : option (ilu K) :=
  match lev_fill with Some 0%nat => SetPattern0 P m | _ => Initialize_levels P m lev_fill end.

(** cpp:1014-1019, 1031-1036 and the same loops of Decompose: mark the columns of a row *)
Definition mark_row (nblk lo hi bound : nat) (rowPtr : list nat) (f : nat -> option nat) (row2crs : list (option nat)) : option (list (option nat)) :=
  forn lo hi (fun ijcrs r =>
    assertb (ijcrs <? bound)%nat ;;;
    jblk0 <- vget rowPtr ijcrs ;;
    assertb (jblk0 <? nblk)%nat ;;;
    vset r jblk0 (f ijcrs)) row2crs.
(** ls_ilu_block_sparse.cpp:1002-1042 *)
Definition CopyValue (P : ilu K) (m : matsp K) : option (ilu K) :=
  let nb := nblk P in
  assertb (nrowblk m =? nb)%nat ;;; assertb (ncolblk m =? nb)%nat ;;; assertb (nrowdim m =? ndim P)%nat ;;; assertb (ncoldim m =? ndim P)%nat ;;;
  let blksize := (ndim P *n ndim P)%nat in
  vcrs <- forn 0 (length (rowPtr P) *n ndim P *n ndim P) (fun i v => vset v i 0) (valCrs P) ;;
  '(_, vcrs) <- forn 0 nb (fun iblk '(row2crs, vcrs) =>
    lo <- vget (colInd P) iblk ;; hi <- vget (colInd P) (iblk +n 1) ;;
    row2crs <- mark_row nb lo hi (length (rowPtr P)) (rowPtr P) Some row2crs ;;
    mlo <- vget (col_ind m) iblk ;; mhi <- vget (col_ind m) (iblk +n 1) ;;
    vcrs <- forn mlo mhi (fun ijcrs vcrs =>
      assertb (ijcrs <? length (row_ptr m))%nat ;;;
      jblk0 <- vget (row_ptr m) ijcrs ;;
      assertb (jblk0 <? nb)%nat ;;;
      r <- vget row2crs jblk0 ;;
      match r with
      | None => Some vcrs
      | Some ijcrs0 => forn 0 blksize (fun i vcrs => x <- vget (val_crs m) (ijcrs *n blksize +n i) ;; vset vcrs (ijcrs0 *n blksize +n i) x) vcrs
      end) vcrs ;;
    row2crs <- mark_row nb lo hi (length (rowPtr P)) (rowPtr P) (fun _ => None) row2crs ;;
    Some (row2crs, vcrs)) (repeat None nb, vcrs) ;;
  vdia <- forn 0 (nb *n blksize) (fun i v => x <- vget (val_dia m) i ;; vset v i x) (valDia P) ;;
  Some (mkI nb (ndim P) (colInd P) (rowPtr P) (diaInd P) vcrs vdia).
End Subst.

Section Dec.
Variable F : pfield.
Local Open Scope K_scope.
Local Notation "x +n y" := (Nat.add x y) (at level 50, left associativity).
Local Notation "x *n y" := (Nat.mul x y) (at level 40, left associativity).

(** ls_ilu_block_sparse.cpp:37-48; out, a, b are the blocks that start at o, oa, ob; a and b are read from [sa], [sb] *)
Definition CalcSubMatPr (va vb : list F -> list F) (out : list F) (o oa ob ni nk nj : nat) : option (list F) :=
  forn 0 ni (fun i out =>
    forn 0 nj (fun j out =>
      forn 0 nk (fun k out =>
        a <- vget (va out) (oa +n (i *n nk +n k)) ;; b <- vget (vb out) (ob +n (k *n nj +n j)) ;; minuseq F out (o +n (i *n nj +n j)) (a * b)) out) out) out.
(** ls_ilu_block_sparse.cpp:20-35; the block at o of [out]; the diagonal block at od of [d] *)
Definition CalcMatPr (out : list F) (o : nat) (d : list F) (od ni nj : nat) : option (list F) :=
  tmp <- forn 0 ni (fun i tmp =>
    forn 0 nj (fun j tmp =>
      tmp <- vset tmp (i *n nj +n j) 0 ;;
      forn 0 ni (fun k tmp => a <- vget d (od +n (i *n ni +n k)) ;; b <- vget out (o +n (k *n nj +n j)) ;; pluseq F tmp (i *n nj +n j) (a * b)) tmp) tmp) (repeat 0 (ni *n nj)) ;;
  forn 0 (ni *n nj) (fun i out => x <- vget tmp i ;; vset out (o +n i) x) out.
(** ls_ilu_block_sparse.cpp:50-81; the matrix at offset o; the result (matrix, info) *)
Definition CalcInvMat (a : list F) (o n : nat) : option (list F * Z) :=
  forb 0 n (fun i '(a, info) =>
    p <- vget a (o +n (i *n n +n i)) ;;
    if small p then Some ((a, 1%Z), true) else
    let info := if isneg p then (info - 1)%Z else info in
    tmp1 <- recip p ;;
    a <- vset a (o +n (i *n n +n i)) 1 ;;
    a <- forn 0 n (fun k a => vmod a (o +n (i *n n +n k)) (fun x => x * tmp1)) a ;;
    a <- forn 0 n (fun j a =>
      if (j =? i)%nat then Some a else
      tmp1 <- vget a (o +n (j *n n +n i)) ;;
      a <- vset a (o +n (j *n n +n i)) 0 ;;
      forn 0 n (fun k a => x <- vget a (o +n (i *n n +n k)) ;; minuseq F a (o +n (j *n n +n k)) (tmp1 * x)) a) a ;;
    Some ((a, info), false)) (a, 0%Z).
(** ls_ilu_block_sparse.cpp:84-103; the 3x3 matrix at offset o *)
Definition det3 (t : nat -> F) : F :=
  t 0%nat * t 4%nat * t 8%nat + t 3%nat * t 7%nat * t 2%nat + t 6%nat * t 1%nat * t 5%nat - t 0%nat * t 7%nat * t 5%nat - t 6%nat * t 4%nat * t 2%nat - t 3%nat * t 1%nat * t 8%nat.
Definition CalcInvMat3 (a : list F) (o : nat) : option (list F) :=
  t0 <- vget a (o +n 0) ;; t1 <- vget a (o +n 1) ;; t2 <- vget a (o +n 2) ;; t3 <- vget a (o +n 3) ;; t4 <- vget a (o +n 4) ;;
  t5 <- vget a (o +n 5) ;; t6 <- vget a (o +n 6) ;; t7 <- vget a (o +n 7) ;; t8 <- vget a (o +n 8) ;;
  inv_det <- recip (det3 (fun i => nth i [t0; t1; t2; t3; t4; t5; t6; t7; t8] 0)) ;;
  a <- vset a (o +n 0) (inv_det * (t4 * t8 - t5 * t7)) ;;
  a <- vset a (o +n 1) (inv_det * (t2 * t7 - t1 * t8)) ;;
  a <- vset a (o +n 2) (inv_det * (t1 * t5 - t2 * t4)) ;;
  a <- vset a (o +n 3) (inv_det * (t5 * t6 - t3 * t8)) ;;
  a <- vset a (o +n 4) (inv_det * (t0 * t8 - t2 * t6)) ;;
  a <- vset a (o +n 5) (inv_det * (t2 * t3 - t0 * t5)) ;;
  a <- vset a (o +n 6) (inv_det * (t3 * t7 - t4 * t6)) ;;
  a <- vset a (o +n 7) (inv_det * (t1 * t6 - t0 * t7)) ;;
  vset a (o +n 8) (inv_det * (t0 * t4 - t1 * t3)).

(** The loops common to the branches of Decompose, ls_ilu_block_sparse.cpp:170-214, 219-281, 287-349, 357-411 (and 435-483):
    [ld]: what is read of block ikcrs before the loop over kjcrs; [subc], [subd]: block_ij -= block_ik * block_kj for a stored or a diagonal block; [inv]: invert diagonal block iblk, true if it is reported as singular; [mulc]: block_ij = diagonal block * block_ij.
    The result: (the returned value, the number of blocks reported as singular, the object). *)
Definition decompose {L : Type} (ld : list F -> nat -> option L) (subc : L -> nat -> nat -> list F -> option (list F)) (subd : L -> nat -> nat -> list F -> list F -> option (list F))
    (inv : list F -> nat -> option (list F * bool)) (mulc : list F -> nat -> list F -> nat -> option (list F)) (P : ilu F) : option (bool * nat * ilu F) :=
  let nb := nblk P in
  m_ncrs <- vget (colInd P) nb ;;
  '(ret, icnt_sing, _, vcrs, vdia) <- forb 0 nb (fun iblk '(ret, icnt_sing, row2crs, vcrs, vdia) =>
    lo <- vget (colInd P) iblk ;; hi <- vget (colInd P) (iblk +n 1) ;;
    row2crs <- mark_row nb lo hi m_ncrs (rowPtr P) Some row2crs ;;
    mid <- vget (diaInd P) iblk ;;
    '(vcrs, vdia) <- forn lo mid (fun ikcrs '(vcrs, vdia) =>
      kblk <- vget (rowPtr P) ikcrs ;;
      assertb (kblk <? nb)%nat ;;;
      ik <- ld vcrs ikcrs ;;
      klo <- vget (diaInd P) kblk ;; khi <- vget (colInd P) (kblk +n 1) ;;
      forn klo khi (fun kjcrs '(vcrs, vdia) =>
        jblk0 <- vget (rowPtr P) kjcrs ;;
        assertb (jblk0 <? nb)%nat ;;;
        if negb (jblk0 =? iblk)%nat then
          r <- vget row2crs jblk0 ;;
          match r with
          | None => Some (vcrs, vdia)
          | Some ijcrs0 => vcrs <- subc ik ijcrs0 kjcrs vcrs ;; Some (vcrs, vdia)
          end
        else vdia <- subd ik iblk kjcrs vcrs vdia ;; Some (vcrs, vdia)) (vcrs, vdia)) (vcrs, vdia) ;;
    '(vdia, sing) <- inv vdia iblk ;;
    let icnt_sing := if sing : bool then (icnt_sing +n 1)%nat else icnt_sing in
    if sing && (10 <? icnt_sing)%nat then Some ((false, icnt_sing, row2crs, vcrs, vdia), true) else
    vcrs <- forn mid hi (fun ijcrs vcrs => assertb (ijcrs <? m_ncrs)%nat ;;; mulc vdia iblk vcrs ijcrs) vcrs ;;
    row2crs <- mark_row nb lo hi m_ncrs (rowPtr P) (fun _ => None) row2crs ;;
    Some ((ret, icnt_sing, row2crs, vcrs, vdia), false)) (true, 0%nat, repeat None nb, valCrs P, valDia P) ;;
  Some (ret, icnt_sing, mkI nb (ndim P) (colInd P) (rowPtr P) (diaInd P) vcrs vdia).

(** 1x1 blocks, cpp:182, 190, 191, 195-204, 208 *)
Definition ldv (vcrs : list F) (ik : nat) : option F := vget vcrs ik.
Definition subc1 (ikvalue : F) (ij kj : nat) (vcrs : list F) : option (list F) := x <- vget vcrs kj ;; minuseq F vcrs ij (ikvalue * x).
Definition subd1 (ikvalue : F) (i kj : nat) (vcrs vdia : list F) : option (list F) := x <- vget vcrs kj ;; minuseq F vdia i (ikvalue * x).
Definition inv1 (vdia : list F) (i : nat) : option (list F * bool) :=
  iivalue <- vget vdia i ;;
  if large iivalue then r <- recip iivalue ;; v <- vset vdia i r ;; Some (v, false) else Some (vdia, true).
Definition mulc1 (vdia : list F) (i : nat) (vcrs : list F) (ij : nat) : option (list F) := v <- vget vcrs ij ;; d <- vget vdia i ;; vset vcrs ij (v * d).
(** cpp:462-463 (complex numbers: no test) *)
Definition inv1c (vdia : list F) (i : nat) : option (list F * bool) := iivalue <- vget vdia i ;; r <- recip iivalue ;; v <- vset vdia i r ;; Some (v, false).

(** pointers to blocks are their indices *)
Definition ldp (vcrs : list F) (ik : nat) : option nat := Some ik.
(** 2x2 blocks, cpp:244-247; the source blocks lie at oa of [va] and ob of [vb] *)
Definition submat2 (va vb : list F -> list F) (out : list F) (o oa ob : nat) : option (list F) :=
  forn 0 4 (fun e out =>
    let i := (e / 2)%nat in let j := (e mod 2)%nat in
    a0 <- vget (va out) (oa +n (i *n 2 +n 0)) ;; b0 <- vget (vb out) (ob +n (0 *n 2 +n j)) ;;
    a1 <- vget (va out) (oa +n (i *n 2 +n 1)) ;; b1 <- vget (vb out) (ob +n (1 *n 2 +n j)) ;;
    minuseq F out (o +n (i *n 2 +n j)) (a0 * b0 + a1 * b1)) out.
Definition subc2 (ik ij kj : nat) (vcrs : list F) : option (list F) := submat2 (fun v => v) (fun v => v) vcrs (ij *n 4) (ik *n 4) (kj *n 4).
Definition subd2 (ik i kj : nat) (vcrs vdia : list F) : option (list F) := submat2 (fun _ => vcrs) (fun _ => vcrs) vdia (i *n 4) (ik *n 4) (kj *n 4).
(** cpp:250-265 *)
Definition inv2 (vdia : list F) (i : nat) : option (list F * bool) :=
  let o := (i *n 4)%nat in
  v0 <- vget vdia (o +n 0) ;; v1 <- vget vdia (o +n 1) ;; v2 <- vget vdia (o +n 2) ;; v3 <- vget vdia (o +n 3) ;;
  let det := v0 * v3 - v1 * v2 in
  if large det then
    inv_det <- recip det ;;
    v <- vset vdia (o +n 0) (inv_det * v3) ;;
    v <- vset v (o +n 1) (- inv_det * v1) ;;
    v <- vset v (o +n 2) (- inv_det * v2) ;;
    v <- vset v (o +n 3) (inv_det * v0) ;;
    Some (v, false)
  else Some (vdia, true).
(** cpp:269-275 *)
Definition mulc2 (vdia : list F) (i : nat) (vcrs : list F) (ij : nat) : option (list F) :=
  let o := (ij *n 4)%nat in
  t0 <- vget vcrs (o +n 0) ;; t1 <- vget vcrs (o +n 1) ;; t2 <- vget vcrs (o +n 2) ;; t3 <- vget vcrs (o +n 3) ;;
  v0 <- vget vdia (i *n 4 +n 0) ;; v1 <- vget vdia (i *n 4 +n 1) ;; v2 <- vget vdia (i *n 4 +n 2) ;; v3 <- vget vdia (i *n 4 +n 3) ;;
  v <- vset vcrs (o +n 0) (v0 * t0 + v1 * t2) ;;
  v <- vset v (o +n 1) (v0 * t1 + v1 * t3) ;;
  v <- vset v (o +n 2) (v2 * t0 + v3 * t2) ;;
  vset v (o +n 3) (v2 * t1 + v3 * t3).

(** 3x3 blocks, cpp:313-317 *)
Definition submat3 (va vb : list F -> list F) (out : list F) (o oa ob : nat) : option (list F) :=
  forn 0 3 (fun i out =>
    forn 0 3 (fun j out =>
      a0 <- vget (va out) (oa +n (i *n 3 +n 0)) ;; b0 <- vget (vb out) (ob +n (0 *n 3 +n j)) ;;
      a1 <- vget (va out) (oa +n (i *n 3 +n 1)) ;; b1 <- vget (vb out) (ob +n (1 *n 3 +n j)) ;;
      a2 <- vget (va out) (oa +n (i *n 3 +n 2)) ;; b2 <- vget (vb out) (ob +n (2 *n 3 +n j)) ;;
      minuseq F out (o +n (i *n 3 +n j)) (a0 * b0 + a1 * b1 + a2 * b2)) out) out.
Definition subc3 (ik ij kj : nat) (vcrs : list F) : option (list F) := submat3 (fun v => v) (fun v => v) vcrs (ij *n 9) (ik *n 9) (kj *n 9).
Definition subd3 (ik i kj : nat) (vcrs vdia : list F) : option (list F) := submat3 (fun _ => vcrs) (fun _ => vcrs) vdia (i *n 9) (ik *n 9) (kj *n 9).
(** cpp:321-335 *)
Definition inv3 (vdia : list F) (i : nat) : option (list F * bool) :=
  let o := (i *n 9)%nat in
  t0 <- vget vdia (o +n 0) ;; t1 <- vget vdia (o +n 1) ;; t2 <- vget vdia (o +n 2) ;; t3 <- vget vdia (o +n 3) ;; t4 <- vget vdia (o +n 4) ;;
  t5 <- vget vdia (o +n 5) ;; t6 <- vget vdia (o +n 6) ;; t7 <- vget vdia (o +n 7) ;; t8 <- vget vdia (o +n 8) ;;
  if large (det3 (fun i => nth i [t0; t1; t2; t3; t4; t5; t6; t7; t8] 0)) then v <- CalcInvMat3 vdia o ;; Some (v, false) else Some (vdia, true).
(** cpp:339-346 *)
Definition mulc3 (vdia : list F) (i : nat) (vcrs : list F) (ij : nat) : option (list F) :=
  let o := (ij *n 9)%nat in
  tmpBlk <- forn 0 9 (fun k t => x <- vget vcrs (o +n k) ;; vset t k x) (repeat 0 9) ;;
  forn 0 3 (fun r v =>
    forn 0 3 (fun c v =>
      a0 <- vget vdia (i *n 9 +n (r *n 3 +n 0)) ;; b0 <- vget tmpBlk (0 *n 3 +n c) ;;
      a1 <- vget vdia (i *n 9 +n (r *n 3 +n 1)) ;; b1 <- vget tmpBlk (1 *n 3 +n c) ;;
      a2 <- vget vdia (i *n 9 +n (r *n 3 +n 2)) ;; b2 <- vget tmpBlk (2 *n 3 +n c) ;;
      vset v (o +n (r *n 3 +n c)) (a0 * b0 + a1 * b1 + a2 * b2)) v) vcrs.

(** other sizes, cpp:383, 388-389, 403 *)
Definition subcn (n ik ij kj : nat) (vcrs : list F) : option (list F) := CalcSubMatPr (fun v => v) (fun v => v) vcrs (ij *n (n *n n)) (ik *n (n *n n)) (kj *n (n *n n)) n n n.
Definition subdn (n ik i kj : nat) (vcrs vdia : list F) : option (list F) := CalcSubMatPr (fun _ => vcrs) (fun _ => vcrs) vdia (i *n (n *n n)) (ik *n (n *n n)) (kj *n (n *n n)) n n n.
Definition invn (n : nat) (vdia : list F) (i : nat) : option (list F * bool) := '(v, info) <- CalcInvMat vdia (i *n (n *n n)) n ;; Some (v, (info =? 1)%Z).
Definition mulcn (n : nat) (vdia : list F) (i : nat) (vcrs : list F) (ij : nat) : option (list F) := CalcMatPr vcrs (ij *n (n *n n)) vdia (i *n (n *n n)) n n.

(** ls_ilu_block_sparse.cpp:153-416 *)
Definition Decompose (P : ilu F) : option (bool * nat * ilu F) :=
  match ndim P with
  | 1 => decompose ldv subc1 subd1 inv1 mulc1 P
  | 2 => decompose ldp subc2 subd2 inv2 mulc2 P
  | 3 => decompose ldp subc3 subd3 inv3 mulc3 P
  | n => decompose ldp (subcn n) (subdn n) (invn n) (mulcn n) P
  end.
(** ls_ilu_block_sparse.cpp:419-490, the version for complex numbers; larger blocks abort *)
Definition Decompose_complex (P : ilu F) : option (bool * nat * ilu F) :=
  match ndim P with
  | 1 => decompose ldv subc1 subd1 inv1c mulc1 P
  | _ => None
  end.
End Dec.
