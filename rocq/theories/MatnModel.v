(** Model of /repo/include/delfem2/matn.h (small dense matrices), of the dense kernels at the top of
    /repo/include/delfem2/ls_ilu_block_sparse.cpp, and of the banded solvers ls_tridiagonal.h, ls_pentadiagonal.h.
    A pointer into an array is a list together with an offset. *)
From Coq Require Import List Arith Bool ZArith Lia.
Import ListNotations.
From Verif Require Import Imp Alg.

(** Scalars with a reciprocal.  [small x] stands for the tests [fabs(x) < 1.0e-30] and [fabs(x) < 1.0e-10]: all that is
    assumed of it is that a number which is not small has the reciprocal [1.0 / x]. *)
Record pfield := mkPF { pr :> cring; pinv : pr -> pr; small : pr -> bool;
  pinv_law : forall x, small x = false -> rmul x (pinv x) = rI }.
Arguments pinv {_}. Arguments small {_}.

Section Matn.
Variable F : pfield.
Notation K := (pr F).
Local Open Scope K_scope.
Local Notation "x +n y" := (Nat.add x y) (at level 50, left associativity).
Local Notation "x *n y" := (Nat.mul x y) (at level 40, left associativity).

(** matn.h:18-42, Inverse_Matrix<REAL,n> (no pivoting), on the n*n numbers starting at [o]; the same loop as
    ls_ilu_block_sparse.cpp:50-81 CalcInvMat, whose [info] is 1 exactly when this returns false (the count of negative
    pivots in [info] is not modelled). *)
Definition Inverse_gen (n : nat) (v : list K) (o : nat) : option (list K * bool) :=
  forb 0 n (fun i s =>
    let '(v, _) := s in
    p <- vget v (o +n i *n n +n i) ;;
    if small p then Some ((v, false), true) else
    let tmp1 := pinv p in
    v <- vset v (o +n i *n n +n i) 1 ;;
    v <- forn 0 n (fun k v => vmod v (o +n i *n n +n k) (fun t => t * tmp1)) v ;;
    v <- forn 0 n (fun j v =>
      if (j =? i)%nat then Some v else
      tmp2 <- vget v (o +n j *n n +n i) ;;
      v <- vset v (o +n j *n n +n i) 0 ;;
      forn 0 n (fun k v => aik <- vget v (o +n i *n n +n k) ;; vmod v (o +n j *n n +n k) (fun t => t - tmp2 * aik)) v) v ;;
    Some ((v, true), false)) (v, true).

(** matn.h:44-65 (double), 72-89 (float): n = 3; also ls_ilu_block_sparse.cpp:84-103 CalcInvMat3. *)
Definition det3 (t : nat -> K) : K :=
  t 0%nat * t 4%nat * t 8%nat + t 3%nat * t 7%nat * t 2%nat + t 6%nat * t 1%nat * t 5%nat
  - t 0%nat * t 7%nat * t 5%nat - t 6%nat * t 4%nat * t 2%nat - t 3%nat * t 1%nat * t 8%nat.
Definition Inverse_3 (v : list K) (o : nat) : option (list K * bool) :=
  t0 <- vget v (o +n 0) ;; t1 <- vget v (o +n 1) ;; t2 <- vget v (o +n 2) ;;
  t3 <- vget v (o +n 3) ;; t4 <- vget v (o +n 4) ;; t5 <- vget v (o +n 5) ;;
  t6 <- vget v (o +n 6) ;; t7 <- vget v (o +n 7) ;; t8 <- vget v (o +n 8) ;;
  let det := det3 (fun i => nth i [t0;t1;t2;t3;t4;t5;t6;t7;t8] 0) in
  let inv_det := pinv det in
  v <- vset v (o +n 0) (inv_det * (t4 * t8 - t5 * t7)) ;;
  v <- vset v (o +n 1) (inv_det * (t2 * t7 - t1 * t8)) ;;
  v <- vset v (o +n 2) (inv_det * (t1 * t5 - t2 * t4)) ;;
  v <- vset v (o +n 3) (inv_det * (t5 * t6 - t3 * t8)) ;;
  v <- vset v (o +n 4) (inv_det * (t0 * t8 - t2 * t6)) ;;
  v <- vset v (o +n 5) (inv_det * (t2 * t3 - t0 * t5)) ;;
  v <- vset v (o +n 6) (inv_det * (t3 * t7 - t4 * t6)) ;;
  v <- vset v (o +n 7) (inv_det * (t1 * t6 - t0 * t7)) ;;
  v <- vset v (o +n 8) (inv_det * (t0 * t4 - t1 * t3)) ;;
  Some (v, true).

(** matn.h:91-102. *)
Definition Inverse_2 (v : list K) (o : nat) : option (list K * bool) :=
  t0 <- vget v (o +n 0) ;; t1 <- vget v (o +n 1) ;; t2 <- vget v (o +n 2) ;; t3 <- vget v (o +n 3) ;;
  let det := t0 * t3 - t1 * t2 in
  if small det then Some (v, false) else
  let invdet := pinv det in
  v <- vset v (o +n 0) (invdet * t3) ;;
  v <- vset v (o +n 1) (- invdet * t1) ;;
  v <- vset v (o +n 2) (- invdet * t2) ;;
  v <- vset v (o +n 3) (invdet * t0) ;;
  Some (v, true).

(** matn.h:104-108. *)
Definition Inverse_1 (v : list K) (o : nat) : option (list K * bool) :=
  t0 <- vget v (o +n 0) ;; v <- vset v (o +n 0) (pinv t0) ;; Some (v, true).

(** Inverse_Matrix<double,n>: the template specialisations of matn.h:44-108. *)
Definition Inverse_Matrix (n : nat) : list K -> nat -> option (list K * bool) :=
  match n with 1 => Inverse_1 | 2 => Inverse_2 | 3 => Inverse_3 | _ => Inverse_gen n end%nat.

(** matn.h:112-125, MatMat<REAL,N>: C = A B with C, A inside [v] and B in [w]. *)
Definition MatMat (N : nat) (v : list K) (oC oA : nat) (w : list K) (oB : nat) : option (list K) :=
  forn 0 N (fun i v => forn 0 N (fun j v =>
    v <- vset v (oC +n i *n N +n j) 0 ;;
    forn 0 N (fun k v =>
      a <- vget v (oA +n i *n N +n k) ;; b <- vget w (oB +n k *n N +n j) ;;
      vmod v (oC +n i *n N +n j) (fun t => t + a * b)) v) v) v.

(** matn.h:127-139, Sub_MatMat: the three blocks are inside [v]. *)
Definition Sub_MatMat (N : nat) (v : list K) (oij oik okj : nat) : option (list K) :=
  forn 0 N (fun i v => forn 0 N (fun j v => forn 0 N (fun k v =>
    a <- vget v (oik +n i *n N +n k) ;; b <- vget v (okj +n k *n N +n j) ;;
    vmod v (oij +n i *n N +n j) (fun t => t - a * b)) v) v) v.

(** matn.h:144-156, MatVec<REAL,n,n>: y (inside [res]) = A (inside [v]) x (the list [x], offset [ox]). *)
Definition MatVecN (N : nat) (res : list K) (oy : nat) (v : list K) (oA : nat) (x : list K) (ox : nat) : option (list K) :=
  forn 0 N (fun i res =>
    res <- vset res (oy +n i) 0 ;;
    forn 0 N (fun j res =>
      a <- vget v (oA +n i *n N +n j) ;; b <- vget x (ox +n j) ;; vmod res (oy +n i) (fun t => t + a * b)) res) res.

(** matn.h:158-168, Sub_MatVec<REAL,n,n>, result array different from the operand array. *)
Definition Sub_MatVecN (N : nat) (res : list K) (oy : nat) (v : list K) (oA : nat) (x : list K) (ox : nat) : option (list K) :=
  forn 0 N (fun i res => forn 0 N (fun j res =>
      a <- vget v (oA +n i *n N +n j) ;; b <- vget x (ox +n j) ;; vmod res (oy +n i) (fun t => t - a * b)) res) res.
(** The same with result and operand inside one array. *)
Definition Sub_MatVecN_in (N : nat) (res : list K) (oy : nat) (v : list K) (oA : nat) (ox : nat) : option (list K) :=
  forn 0 N (fun i res => forn 0 N (fun j res =>
      a <- vget v (oA +n i *n N +n j) ;; b <- vget res (ox +n j) ;; vmod res (oy +n i) (fun t => t - a * b)) res) res.

(** ---- ls_tridiagonal.h ---- *)
(** The block of [n*n] numbers at offset [o]. *)
Definition getblk (n : nat) (v : list K) (o : nat) : list K := map (fun k => nth (o +n k) v 0) (seq 0 (n *n n)).

(** ls_tridiagonal.h:19-23 Initialize (number of stored numbers). *)
Definition tri_size (ndim nblk : nat) : nat := (Z.to_nat (2 + 3 * (Z.of_nat nblk - 2) + 2) *n (ndim *n ndim)).
(** ls_tridiagonal.h:37-43 GetValuePointer; [None] is nullptr, otherwise the offset. *)
Definition tri_ptr (ndim nblk : nat) (iblk jblk : Z) : option nat :=
  (if (iblk <? 0) || (iblk >=? Z.of_nat nblk) then None
   else if (jblk <? 0) || (jblk >=? Z.of_nat nblk) then None
   else if (iblk - jblk <? -1) || (iblk - jblk >? 1) then None
   else Some (Z.to_nat (iblk * 2 + jblk) * (ndim * ndim))%nat)%Z.

(** ls_tridiagonal.h:53-57 Merge. *)
Definition tri_Merge (ndim : nat) (idiv : nat) (eM : list K) (v : list K) : option (list K) :=
  forn 0 (4 *n ndim *n ndim) (fun i v => e <- vget eM i ;; vmod v (idiv *n ndim *n ndim *n 3 +n i) (fun t => t + e)) v.

(** A dereferenced pointer must not be nullptr. *)
Definition deref (p : option nat) : option nat := p.

(** ls_tridiagonal.h:73-94 FixBC. *)
Definition band_FixBC (ndim nblk : nat) (ptr : Z -> Z -> option nat) (w : nat) (iblk idim : nat) (v : list K) : option (list K) :=
  assertb ((idim <? ndim) && (iblk <? nblk)) ;;;
  v <- forn 0 (2 *n w +n 1) (fun t v =>
     match ptr (Z.of_nat iblk) (Z.of_nat iblk - Z.of_nat w + Z.of_nat t)%Z with
     | None => Some v
     | Some p => forn 0 ndim (fun jdim v => vset v (p +n idim *n ndim +n jdim) 0) v
     end) v ;;
  v <- forn 0 (2 *n w +n 1) (fun t v =>
     match ptr (Z.of_nat iblk - Z.of_nat w + Z.of_nat t)%Z (Z.of_nat iblk) with
     | None => Some v
     | Some p => forn 0 ndim (fun jdim v => vset v (p +n jdim *n ndim +n idim) 0) v
     end) v ;;
  p <- deref (ptr (Z.of_nat iblk) (Z.of_nat iblk)) ;;
  vset v (p +n idim *n ndim +n idim) 1.
Definition tri_FixBC (ndim nblk : nat) : nat -> nat -> list K -> option (list K) :=
  band_FixBC ndim nblk (tri_ptr ndim nblk) 1.

(** ls_tridiagonal.h:97-121 Decompose.  Besides the array we return, for each block row, the diagonal block before
    Inverse_Matrix and the result of Inverse_Matrix (a trace of the run; the C++ function returns nothing and ignores that result). *)
Definition tri_Decompose (ndim nblk : nat) (v : list K) : option (list K * list (list K * bool)) :=
  let ptr := tri_ptr ndim nblk in
  forn 0 nblk (fun iblk s =>
    let '(v, tr) := s in
    let i := Z.of_nat iblk in
    v <- (if (iblk =? 0)%nat then Some v else
        pik <- deref (ptr i (i - 1)%Z) ;; pkj <- deref (ptr (i - 1)%Z i) ;; pij <- deref (ptr i i) ;;
        Sub_MatMat ndim v pij pik pkj) ;;
    pii <- deref (ptr i i) ;;
    let before := getblk ndim v pii in
    '(v, ok) <- Inverse_Matrix ndim v pii ;;
    v <- (if (i =? Z.of_nat nblk - 1)%Z then Some v else
        pij <- deref (ptr i (i + 1)%Z) ;; pii <- deref (ptr i i) ;;
        let tmpBlk := getblk ndim v pij in
        MatMat ndim v pij pii tmpBlk 0) ;;
    Some (v, tr ++ [(before, ok)])) (v, []).

(** ls_tridiagonal.h:123-145 Solve. *)
Definition tri_Solve (ndim nblk : nat) (v res : list K) : option (list K) :=
  let ptr := tri_ptr ndim nblk in
  res <- forn 0 nblk (fun iblk res =>
    let i := Z.of_nat iblk in
    tmp <- forn 0 ndim (fun idim tmp => r <- vget res (iblk *n ndim +n idim) ;; vset tmp idim r) (repeat 0 ndim) ;;
    tmp <- (if (iblk =? 0)%nat then Some tmp else
       pij <- deref (ptr i (i - 1)%Z) ;;
       Sub_MatVecN ndim tmp 0 v pij res ((iblk - 1) *n ndim)%nat) ;;
    pii <- deref (ptr i i) ;;
    MatVecN ndim res (iblk *n ndim) v pii tmp 0) res ;;
  ford (nblk - 1)%nat 0 (fun i1 res =>
    let iblk := (i1 - 1)%nat in
    let i := Z.of_nat iblk in
    pij <- deref (ptr i (i + 1)%Z) ;;
    Sub_MatVecN_in ndim res (iblk *n ndim) v pij ((iblk +n 1) *n ndim)) res.

(** ---- ls_pentadiagonal.h ---- *)
(** ls_pentadiagonal.h:24-29 Initialize (number of stored numbers). *)
Definition penta_size (ndim nblk : nat) : nat := ((3 +n 4 +n 5 *n (nblk - 4) +n 4 +n 3) *n (ndim *n ndim))%nat.
(** ls_pentadiagonal.h:44-52 GetValuePointer. *)
Definition penta_ptr (ndim nblk : nat) (iblk jblk : Z) : option nat :=
  (if (iblk <? 0) || (iblk >=? Z.of_nat nblk) then None
   else if (jblk <? 0) || (jblk >=? Z.of_nat nblk) then None
   else if (iblk - jblk <? -2) || (iblk - jblk >? 2) then None
   else if iblk <? 2 then Some (Z.to_nat (iblk * 3 + jblk) * (ndim * ndim))%nat
   else if iblk =? Z.of_nat nblk - 1 then Some (Z.to_nat (iblk * 4 - 2 + jblk) * (ndim * ndim))%nat
   else Some (Z.to_nat (iblk * 4 - 1 + jblk) * (ndim * ndim))%nat)%Z.

(** ls_pentadiagonal.h:61-71 Merge; [eM] is double[3][3][ndim][ndim] in row-major order. *)
Definition penta_Merge (ndim nblk : nat) (iblk : nat) (eM : list K) (v : list K) : option (list K) :=
  assertb (Z.of_nat iblk <? Z.of_nat nblk - 2)%Z ;;;
  forn 0 3 (fun i v => forn 0 3 (fun j v =>
    match penta_ptr ndim nblk (Z.of_nat (iblk +n i)) (Z.of_nat (iblk +n j)) with
    | None => Some v
    | Some p => forn 0 (ndim *n ndim) (fun k v =>
        q <- vget eM ((i *n 3 +n j) *n (ndim *n ndim) +n k) ;; vmod v (p +n k) (fun t => t + q)) v
    end) v) v.
(** ls_pentadiagonal.h:76-83 MergeBlock. *)
Definition penta_MergeBlock (ndim nblk : nat) (iblkrow jblkcol : nat) (block : list K) (v : list K) : option (list K) :=
  p <- deref (penta_ptr ndim nblk (Z.of_nat iblkrow) (Z.of_nat jblkcol)) ;;
  forn 0 (ndim *n ndim) (fun k v => q <- vget block k ;; vmod v (p +n k) (fun t => t + q)) v.

(** ls_pentadiagonal.h:218-239 FixBC. *)
Definition penta_FixBC (ndim nblk : nat) : nat -> nat -> list K -> option (list K) :=
  band_FixBC ndim nblk (penta_ptr ndim nblk) 2.

(** ls_pentadiagonal.h:95-108 DecompIJK. *)
Definition DecompIJK (ndim nblk : nat) (v : list K) (iblk jblk kblk : Z) : option (list K) :=
  let ptr := penta_ptr ndim nblk in
  if ((iblk <? 0) || (jblk <? 0) || (kblk <? 0))%Z then Some v else
  assertb ((kblk <? iblk) && (kblk <? jblk))%Z ;;;
  match ptr iblk kblk with None => Some v | Some pik =>
  match ptr kblk jblk with None => Some v | Some pkj =>
  match ptr iblk jblk with None => Some v | Some pij =>
    Sub_MatMat ndim v pij pik pkj end end end.
(** ls_pentadiagonal.h:109-119 UpdateU. *)
Definition UpdateU (ndim nblk : nat) (v : list K) (iblk jblk : Z) : option (list K) :=
  assertb (iblk <? jblk)%Z ;;;
  match penta_ptr ndim nblk iblk jblk with
  | None => Some v
  | Some pij =>
    pii <- deref (penta_ptr ndim nblk iblk iblk) ;;
    let tmpBlk := getblk ndim v pij in
    MatMat ndim v pij pii tmpBlk 0
  end.
(** ls_pentadiagonal.h:242-259 Decompose, with the same trace as [tri_Decompose]. *)
Definition penta_Decompose (ndim nblk : nat) (v : list K) : option (list K * list (list K * bool)) :=
  forn 0 nblk (fun iblk s =>
    let '(v, tr) := s in
    let i := Z.of_nat iblk in
    v <- DecompIJK ndim nblk v i (i - 1)%Z (i - 2)%Z ;;
    v <- DecompIJK ndim nblk v i i (i - 2)%Z ;;
    v <- DecompIJK ndim nblk v i i (i - 1)%Z ;;
    v <- DecompIJK ndim nblk v i (i + 1)%Z (i - 1)%Z ;;
    pii <- deref (penta_ptr ndim nblk i i) ;;
    let before := getblk ndim v pii in
    '(v, ok) <- Inverse_Matrix ndim v pii ;;
    v <- UpdateU ndim nblk v i (i + 1)%Z ;;
    v <- UpdateU ndim nblk v i (i + 2)%Z ;;
    Some (v, tr ++ [(before, ok)])) (v, []).

(** ls_pentadiagonal.h:120-124 Substitution, into a temporary and inside the result array; the pointer arithmetic before the nullptr test
    is not modelled as an error when it leaves the array. *)
Definition penta_Subst (ndim nblk : nat) (tmp : list K) (v res : list K) (iblk jblk : Z) : option (list K) :=
  match penta_ptr ndim nblk iblk jblk with
  | None => Some tmp
  | Some pij => Sub_MatVecN ndim tmp 0 v pij res (Z.to_nat jblk *n ndim)
  end.
Definition penta_Subst_in (ndim nblk : nat) (v res : list K) (iblk jblk : Z) : option (list K) :=
  match penta_ptr ndim nblk iblk jblk with
  | None => Some res
  | Some pij => Sub_MatVecN_in ndim res (Z.to_nat iblk *n ndim) v pij (Z.to_nat jblk *n ndim)
  end.
(** ls_pentadiagonal.h:260-278 Solve. *)
Definition penta_Solve (ndim nblk : nat) (v res : list K) : option (list K) :=
  res <- forn 0 nblk (fun iblk res =>
    let i := Z.of_nat iblk in
    tmp <- forn 0 ndim (fun idim tmp => r <- vget res (iblk *n ndim +n idim) ;; vset tmp idim r) (repeat 0 ndim) ;;
    tmp <- penta_Subst ndim nblk tmp v res i (i - 2)%Z ;;
    tmp <- penta_Subst ndim nblk tmp v res i (i - 1)%Z ;;
    pii <- deref (penta_ptr ndim nblk i i) ;;
    MatVecN ndim res (iblk *n ndim) v pii tmp 0) res ;;
  ford (nblk - 1)%nat 0 (fun i1 res =>
    let iblk := (i1 - 1)%nat in
    let i := Z.of_nat iblk in
    res <- penta_Subst_in ndim nblk v res i (i + 1)%Z ;;
    penta_Subst_in ndim nblk v res i (i + 2)%Z) res.

(** ---- LinearSystemSolver_BlockPentaDiagonal, ls_pentadiagonal.h:130-213 ---- *)
(** ls_pentadiagonal.h:150-171 Merge; [emat] is double[nrow][ncol][ndimrow][ndimcol] in row-major order.  The inner loop runs j over ndimrow,
    as in the code. *)
Definition lsp_Merge (ndim nblk nrow ncol ndimrow ndimcol : nat) (aIpRow aIpCol : list nat) (emat : list K) (v : list K) : option (list K) :=
  assertb ((ndimrow <=? ndim) && (ndimcol <=? ndim)) ;;;
  forn 0 nrow (fun irow v => forn 0 ncol (fun icol v =>
    ip <- vget aIpRow irow ;; jp <- vget aIpCol icol ;;
    assertb ((ip <? nblk) && (jp <? nblk)) ;;;
    p <- deref (penta_ptr ndim nblk (Z.of_nat ip) (Z.of_nat jp)) ;;
    forn 0 ndimrow (fun i v => forn 0 ndimrow (fun j v =>
      e <- vget emat (((irow *n ncol +n icol) *n ndimrow +n i) *n ndimcol +n j) ;;
      vmod v (p +n i *n ndim +n j) (fun t => t + e)) v) v) v) v.
(** ls_pentadiagonal.h:173-179 AddValueToDiagonal. *)
Definition lsp_AddValueToDiagonal (ndim nblk : nat) (ip idim : nat) (val : K) (v : list K) : option (list K) :=
  p <- deref (penta_ptr ndim nblk (Z.of_nat ip) (Z.of_nat ip)) ;; vmod v (p +n idim *n ndim +n idim) (fun t => t + val).
(** ls_pentadiagonal.h:181-206 Solve; returns the factorised matrix with its trace, vec_r and vec_x. *)
Definition lsp_Fix (ndim nblk : nat) (bcflag : list nat) (v r : list K) : option (list K * list K) :=
  forn 0 nblk (fun iblk s => forn 0 ndim (fun idim s =>
    let '(v, r) := s in
    f <- vget bcflag (iblk *n ndim +n idim) ;;
    if (f =? 0)%nat then Some (v, r) else
    v <- penta_FixBC ndim nblk iblk idim v ;;
    r <- vset r (iblk *n ndim +n idim) 0 ;;
    Some (v, r)) s) (v, r).
Definition lsp_Solve (ndim nblk : nat) (bcflag : list nat) (v r : list K) : option (list (list K * bool) * list K * list K) :=
  '(v, r) <- lsp_Fix ndim nblk bcflag v r ;;
  '(v, tr) <- penta_Decompose ndim nblk v ;;
  x <- penta_Solve ndim nblk v r ;;
  Some (tr, r, x).
End Matn.
Arguments lsp_Merge {F}. Arguments lsp_AddValueToDiagonal {F}. Arguments lsp_Fix {F}. Arguments lsp_Solve {F}.
Arguments Inverse_gen {F}. Arguments Inverse_3 {F}. Arguments Inverse_2 {F}. Arguments Inverse_1 {F}.
Arguments Inverse_Matrix {F}. Arguments MatMat {F}. Arguments Sub_MatMat {F}. Arguments MatVecN {F}. Arguments Sub_MatVecN {F}.
Arguments Sub_MatVecN_in {F}. Arguments getblk {F}. Arguments tri_Merge {F}. Arguments tri_FixBC {F}. Arguments band_FixBC {F}.
Arguments tri_Decompose {F}. Arguments tri_Solve {F}. Arguments penta_Merge {F}. Arguments penta_MergeBlock {F}.
Arguments penta_FixBC {F}. Arguments DecompIJK {F}. Arguments UpdateU {F}. Arguments penta_Decompose {F}.
Arguments penta_Subst {F}. Arguments penta_Subst_in {F}. Arguments penta_Solve {F}. Arguments det3 {F}.
