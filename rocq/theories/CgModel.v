(** Model of /repo/include/delfem2/lsitrsol.h (conjugate gradients) on the vectors of /repo/include/delfem2/view_vectorx.h
    and the block sparse matrices of SpModel. *)
From Coq Require Import List Arith Bool ZArith.
Import ListNotations.
From Verif Require Import Imp Alg SpModel MatnModel.

Section Cg.
Variable F : pfield.
Notation K := (pr F).
Local Open Scope K_scope.
(** [rt] stands for sqrt, [ltb a b] for a < b.  Nothing is assumed of them in the model. *)
Variables (rt : K -> K) (ltb : K -> K -> bool).

(** view_vectorx.h:32-39, 100-105 Dot. *)
Definition Dot (x y : list K) : option K :=
  assertb (length x =? length y) ;;;
  forn 0 (length x) (fun i d => a <- vget x i ;; b <- vget y i ;; Some (d + a * b)) 0.
(** view_vectorx.h:44-47 operator=. *)
Definition copyv (p rhs : list K) : option (list K) :=
  assertb (length p =? length rhs) ;;;
  forn 0 (length p) (fun i p => a <- vget rhs i ;; vset p i a) p.
(** view_vectorx.h:49-51 setZero. *)
Definition setZerov (p : list K) : option (list K) := forn 0 (length p) (fun i p => vset p i 0) p.
(** view_vectorx.h:61-71 AddScaledVec. *)
Definition AddScaledVec (y : list K) (alpha : K) (x : list K) : option (list K) :=
  assertb (length y =? length x) ;;;
  forn 0 (length x) (fun i y => a <- vget x i ;; vmod y i (fun t => t + alpha * a)) y.
(** view_vectorx.h:73-83 ScaleAndAddVec. *)
Definition ScaleAndAddVec (y : list K) (beta : K) (x : list K) : option (list K) :=
  assertb (length y =? length x) ;;;
  forn 0 (length x) (fun i y => a <- vget x i ;; vmod y i (fun t => beta * t + a)) y.
(** view_vectorx.h:85-95 AddMatVec. *)
Definition AddMatVec (lhs : list K) (scale_lhs scale_rhs : K) (mat : matsp K) (rhs : list K) : option (list K) :=
  assertb (length lhs =? length rhs) ;;; MatVec mat lhs scale_rhs rhs scale_lhs.

(** lsitrsol.h:36-74 Solve_CG.  [a / b] is [a * pinv b] (in the code a division by zero yields an infinity or a NaN, here an
    unspecified number); [small sqnorm_res] is the test sqnorm_res < 1.0e-30.  Result: the convergence history, the
    residual vector, the solution, the search direction. *)
Definition Solve_CG (r_vec u_vec Ap_vec p_vec : list K) (conv_ratio_tol : K) (max_iteration : nat) (mat : matsp K)
    : option (list K * list K * list K * list K) :=
  u_vec <- setZerov u_vec ;;
  sqnorm_res <- Dot r_vec r_vec ;;
  if small sqnorm_res then Some ([], r_vec, u_vec, p_vec) else
  let inv_sqnorm_res_ini := pinv sqnorm_res in
  p_vec <- copyv p_vec r_vec ;;
  '(aConv, r_vec, u_vec, Ap_vec, p_vec, sqnorm_res) <- forb 0 max_iteration (fun _ s =>
    let '(aConv, r_vec, u_vec, Ap_vec, p_vec, sqnorm_res) := s in
    Ap_vec <- AddMatVec Ap_vec 0 1 mat p_vec ;;
    pAp <- Dot p_vec Ap_vec ;;
    let alpha := sqnorm_res * pinv pAp in
    u_vec <- AddScaledVec u_vec alpha p_vec ;;
    r_vec <- AddScaledVec r_vec (- alpha) Ap_vec ;;
    sqnorm_res_new <- Dot r_vec r_vec ;;
    let conv_ratio := rt (sqnorm_res_new * inv_sqnorm_res_ini) in
    let aConv := aConv ++ [conv_ratio] in
    if ltb conv_ratio conv_ratio_tol then Some ((aConv, r_vec, u_vec, Ap_vec, p_vec, sqnorm_res), true) else
    let beta := sqnorm_res_new * pinv sqnorm_res in
    p_vec <- ScaleAndAddVec p_vec beta r_vec ;;
    Some ((aConv, r_vec, u_vec, Ap_vec, p_vec, sqnorm_res_new), false))
    ([], r_vec, u_vec, Ap_vec, p_vec, sqnorm_res) ;;
  Some (aConv, r_vec, u_vec, p_vec).

(** lsitrsol.h:81-148 Solve_PCG; [prec] is ilu.SolvePrecond.  The flag in the loop state tells a convergence return. *)
Definition Solve_PCG (r_vec x_vec Pr_vec p_vec : list K) (conv_ratio_tol : K) (max_nitr : nat) (mat : matsp K)
    (prec : list K -> option (list K)) : option (list K * list K * list K * list K) :=
  x_vec <- setZerov x_vec ;;
  sqnorm_res0 <- Dot r_vec r_vec ;;
  let aResHistry := [rt sqnorm_res0] in
  if small sqnorm_res0 then Some (aResHistry, r_vec, x_vec, p_vec) else
  let inv_sqnorm_res0 := pinv sqnorm_res0 in
  Pr_vec <- copyv Pr_vec r_vec ;;
  Pr_vec <- prec Pr_vec ;;
  p_vec <- copyv p_vec Pr_vec ;;
  rPr <- Dot r_vec Pr_vec ;;
  '(fin, aResHistry, r_vec, x_vec, Pr_vec, p_vec, rPr) <- forb 0 max_nitr (fun _ s =>
    let '(_, aResHistry, r_vec, x_vec, Ap_vec, p_vec, rPr) := s in
    Ap_vec <- AddMatVec Ap_vec 0 1 mat p_vec ;;
    pAp <- Dot p_vec Ap_vec ;;
    let alpha := rPr * pinv pAp in
    r_vec <- AddScaledVec r_vec (- alpha) Ap_vec ;;
    x_vec <- AddScaledVec x_vec alpha p_vec ;;
    sqnorm_res <- Dot r_vec r_vec ;;
    let aResHistry := aResHistry ++ [rt sqnorm_res] in
    let conv_ratio := rt (sqnorm_res * inv_sqnorm_res0) in
    if ltb conv_ratio conv_ratio_tol then Some ((true, aResHistry, r_vec, x_vec, Ap_vec, p_vec, rPr), true) else
    Pr_vec <- copyv Ap_vec r_vec ;;
    Pr_vec <- prec Pr_vec ;;
    rPr1 <- Dot r_vec Pr_vec ;;
    let beta := rPr1 * pinv rPr in
    p_vec <- ScaleAndAddVec p_vec beta Pr_vec ;;
    Some ((false, aResHistry, r_vec, x_vec, Pr_vec, p_vec, rPr1), false))
    (false, aResHistry, r_vec, x_vec, Pr_vec, p_vec, rPr) ;;
  if fin : bool then Some (aResHistry, r_vec, x_vec, p_vec) else
  sq_norm_res <- Dot r_vec r_vec ;;
  Some (aResHistry ++ [rt sq_norm_res], r_vec, x_vec, p_vec).
End Cg.
Arguments Dot {F}. Arguments copyv {F}. Arguments setZerov {F}. Arguments AddScaledVec {F}. Arguments ScaleAndAddVec {F}.
Arguments AddMatVec {F}. Arguments Solve_CG {F}. Arguments Solve_PCG {F}.
