(** Model of /repo/include/delfem2/polynomial_root.h.  Real numbers stand for double; a division by zero is undefined (None). *)
From Coq Require Import List Arith Bool Reals.
Import ListNotations.
From Verif Require Import Imp.
Open Scope R_scope.

Definition ltR (a b : R) : bool := if Rlt_dec a b then true else false.
Definition eqR (a b : R) : bool := if Req_EM_T a b then true else false.
(** polynomial_root.h:20-29 *)
Definition Eval_Polynomial (x : R) (a : list R) (n : nat) : option R :=
  assertb (negb (n =? 0)%nat) ;;;
  v <- vget a (n - 1) ;;
  forn 1 n (fun i v => c <- vget a (n - 1 - i) ;; Some (v * x + c)) v.
Definition div (a b : R) : option R := if eqR b 0 then None else Some (a / b).
(** polynomial_root.h:199-227, with the assertions of the debug build *)
Definition RootsInRange_QuadraticPolynomial (x0 x1 a b c : R) : option (list R) :=
  assertb (negb (ltR x1 x0)) ;;;
  let delta := b * b - 4 * a * c in
  if ltR delta 0 then Some [] else
  if eqR a 0 then
    if eqR b 0 then None else
    cand <- div c b ;;
    if ltR x0 cand || ltR cand x1 then Some [cand] else Some []
  else
  let delta := sqrt delta in
  c0 <- div (- b - delta) (2 * a) ;;
  c1 <- div (- b + delta) (2 * a) ;;
  foldM (fun cand res => if ltR cand x0 || ltR x1 cand then Some res else Some (res ++ [cand])) [c0; c1] [].
(** polynomial_root.h:239-264, with the assertion of the debug build *)
Definition RootInInterval_Bisection (range_left range_right : R) (a : list R) (ndegree_plus1 num_iteration : nat) : option R :=
  let x0 := range_left in
  let x1 := range_right in
  fx0 <- Eval_Polynomial x0 a ndegree_plus1 ;;
  fx1 <- Eval_Polynomial x1 a ndegree_plus1 ;;
  assertb (negb (ltR 0 (fx0 * fx1))) ;;;
  '(x0, x1, fx0, fx1) <- forn 0 num_iteration (fun _ '(x0, x1, fx0, fx1) =>
    let x2 := (x0 + x1) / 2 in
    fx2 <- Eval_Polynomial x2 a ndegree_plus1 ;;
    if ltR (fx1 * fx2) 0 then Some (x1, x2, fx1, fx2) else Some (x0, x2, fx0, fx2)) (x0, x1, fx0, fx1) ;;
  div (x0 * fx1 - x1 * fx0) (fx1 - fx0).
