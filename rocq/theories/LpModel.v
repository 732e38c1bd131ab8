(** Model of /repo/include/delfem2/lp.{h,cpp}: the linear programming solver CLinPro.
    The code calls a row of the table (an equation) "col" and a column of the table (a variable) "row"; the names are kept.
    Scalars are exact: an arbitrary ordered field, with the numeric tolerances of the code as positive constants.  Assertions are on.  The prints (lp.cpp:14-45, 213-217) are not modelled. *)
From Coq Require Import List Arith Bool.
Import ListNotations.
From Verif Require Import Imp Alg.

(** Ordered fields: [odiv] is double division (None: division by zero), [oltb] is [<], and the constants are 1.0e-30, 1.0e-10, 1.0e-8 and 1.0e+10. *)
Record ofield := mkOF {
  oK :> cring;
  odiv : oK -> oK -> option oK;
  oltb : oK -> oK -> bool;
  e30 : oK; e10 : oK; e8 : oK; big : oK;
  odiv_ok : forall x y, y <> 0%K -> exists z, odiv x y = Some z /\ (z * y)%K = x;
  olt_irrefl : forall x, oltb x x = false;
  olt_trans : forall x y z, oltb x y = true -> oltb y z = true -> oltb x z = true;
  olt_total : forall x y, oltb x y = true \/ x = y \/ oltb y x = true;
  olt_add : forall x y z, oltb x y = true -> oltb (x + z)%K (y + z)%K = true;
  olt_mul : forall x y, oltb 0%K x = true -> oltb 0%K y = true -> oltb 0%K (x * y)%K = true;
  e30_pos : oltb 0%K e30 = true; e30_1 : oltb e30 1%K = true; e10_pos : oltb 0%K e10 = true; e8_pos : oltb 0%K e8 = true }.
Arguments odiv {_}. Arguments oltb {_}. Arguments e30 {_}. Arguments e10 {_}. Arguments e8 {_}. Arguments big {_}.

Notation "a +n b" := (Nat.add a b) (at level 50, left associativity).
Notation "a *n b" := (Nat.mul a b) (at level 40, left associativity).
Notation "a -n b" := (Nat.sub a b) (at level 50, left associativity).

(** lp.h:20-22 *)
Inductive eqtype := LE | GE | EQ.

Section Model.
Variable F : ofield.
Local Open Scope K_scope.

(** lp.h:38-62, class CEq *)
Record ceq := mkEq { aCoeff : list F; erhs : F; itype : eqtype }.

(** lp.h:65-69, the data members of CLinPro *)
Record linpro := mkLP { aEq : list ceq; neq : nat; nvar : nat; nslk : nat; nart : nat; mcr : list nat; tabA : list F }.

(** [fabs] *)
Definition fabs (x : F) : F := if oltb x 0 then - x else x.

(** lp.cpp:48-86, LinPro_CheckTable (None: an assertion fails) *)
Definition LinPro_CheckTable (B : list F) (mc : list nat) (ncol nrow : nat) : option bool :=
  assertb (length B =? ncol *n nrow) ;;;
  assertb (length mc =? ncol) ;;;
  assertb (0 <? ncol) ;;;
  _ <- forn 0 ncol (fun jcol flg =>
    jrow <- vget mc jcol ;;
    assertb (jrow <? nrow) ;;;
    g <- vget flg jrow ;;
    assertb (g =? 0) ;;;
    vset flg jrow 1%nat) (repeat 0%nat nrow) ;;
  ret <- forb 0 ncol (fun jcol (_ : bool) =>
    jrow_dia <- vget mc jcol ;;
    r <- forb 0 (ncol -n 1) (fun icol (_ : bool) =>
      dia0 <- vget B (icol *n nrow +n jrow_dia) ;;
      if icol =? jcol then
        assertb (oltb (fabs (dia0 - 1)) e30) ;;;
        rhs0 <- vget B (jcol *n nrow) ;;
        if jcol =? ncol -n 1 then Some (true, false)
        else if oltb rhs0 (- e10) then Some (false, true)
        else assertb (oltb (- e10) rhs0) ;;; Some (true, false)
      else
        assertb (oltb (fabs dia0) e10) ;;; Some (true, false)) true ;;
    Some (r, negb r)) true ;;
  Some ret.

(** lp.cpp:105-107 and 161-163, the inner loops: B[dst][.] -= c*B[src][.] *)
Definition row_sub (nrow dst src : nat) (c : F) (B : list F) : option (list F) :=
  forn 0 nrow (fun krow B =>
    x <- vget B (src *n nrow +n krow) ;;
    vmod B (dst *n nrow +n krow) (fun y => y - c * x)) B.

(** lp.cpp:100-108, the target row is cleared in the columns of the basis *)
Definition clear_target (ncol nrow : nat) (mc : list nat) (B : list F) : option (list F) :=
  forn 0 (ncol -n 1) (fun icol B =>
    jrow <- vget mc icol ;;
    b0 <- vget B (icol *n nrow +n jrow) ;;
    b1 <- vget B ((ncol -n 1) *n nrow +n jrow) ;;
    if oltb (fabs b1) e30 then Some B else
    assertb (oltb e30 (fabs b0)) ;;;
    ratio <- odiv b1 b0 ;;
    row_sub nrow (ncol -n 1) icol ratio B) B.

(** lp.cpp:111-116, flg_row *)
Definition set_flags (ncol nrow : nat) (mc : list nat) : option (list nat) :=
  flg <- forn 0 ncol (fun ieq flg => jrow <- vget mc ieq ;; vset flg jrow 1%nat) (repeat 0%nat nrow) ;;
  vset flg 0 2%nat.

(** lp.cpp:122-134, check of convergence *)
Definition is_optim (ncol nrow : nat) (flg : list nat) (B : list F) : option bool :=
  forn 0 nrow (fun jrow o =>
    g <- vget flg jrow ;;
    if negb (g =? 0) then Some o else
    d0 <- vget B ((ncol -n 1) *n nrow +n jrow) ;;
    if negb (oltb d0 0) then Some o else Some false) true.

(** lp.cpp:142-156, the smallest ratio of a column: the value min_bound and the equation icol_min_cand (None: UINT_MAX) *)
Definition min_ratio (ncol nrow jrow : nat) (B : list F) : option (F * option nat) :=
  forn 0 (ncol -n 1) (fun icol s =>
    dia0 <- vget B (icol *n nrow +n jrow) ;;
    rhs0 <- vget B (icol *n nrow) ;;
    if negb (oltb 0 dia0) then Some s else
    bound0 <- odiv rhs0 dia0 ;;
    if oltb big bound0 then Some s else
    match snd s with
    | None => Some (bound0, Some icol)
    | Some _ => if oltb bound0 (fst s) then Some (bound0, Some icol) else Some s
    end) (- (1), None).

(** std::map<double,...>::insert: sorted by the key, an equal key is not replaced *)
Fixpoint map_insert {V} (k : F) (v : V) (m : list (F * V)) : list (F * V) :=
  match m with
  | [] => [(k, v)]
  | (k', v') :: t => if oltb k k' then (k, v) :: m else if oltb k' k then (k', v') :: map_insert k v t else m
  end.

(** lp.cpp:137-159, mapBoundIndex *)
Definition bound_index (ncol nrow : nat) (flg : list nat) (B : list F) : option (list (F * (nat * nat))) :=
  forn 0 nrow (fun jrow m =>
    g <- vget flg jrow ;;
    if negb (g =? 0) then Some m else
    d0 <- vget B ((ncol -n 1) *n nrow +n jrow) ;;
    if negb (oltb d0 0) then Some m else
    '(min_bound, cand) <- min_ratio ncol nrow jrow B ;;
    match cand with
    | None => Some m
    | Some icol => Some (map_insert (min_bound * d0) (icol, jrow) m)
    end) [].

(** lp.cpp:170-180, the Gauss sweep with the pivot (icol_min, jrow_min) *)
Definition sweep (ncol nrow icol_min jrow_min : nat) (B : list F) : option (list F) :=
  vpiv <- vget B (icol_min *n nrow +n jrow_min) ;;
  B <- forn 0 nrow (fun jrow B =>
    x <- vget B (icol_min *n nrow +n jrow) ;;
    y <- odiv x vpiv ;;
    vset B (icol_min *n nrow +n jrow) y) B ;;
  forn 0 ncol (fun icol B =>
    if icol =? icol_min then Some B else
    vpiv0 <- vget B (icol *n nrow +n jrow_min) ;;
    row_sub nrow icol icol_min vpiv0 B) B.

(** lp.cpp:118-187, one iteration of the main loop.  State: B, map_col2row, flg_row, and the values (return value, nitr) once the function has returned *)
Definition lpst : Type := (list F * list nat * list nat * option (nat * nat))%type.
Definition lp_iter (ncol nrow : nat) (itr : nat) (s : lpst) : option (lpst * bool) :=
  let '(B, mc, flg, _) := s in
  c <- LinPro_CheckTable B mc ncol nrow ;;
  assertb c ;;;
  o <- is_optim ncol nrow flg B ;;
  if o : bool then Some (B, mc, flg, Some (0%nat, itr), true) else
  m <- bound_index ncol nrow flg B ;;
  match m with
  | [] => Some (B, mc, flg, Some (2%nat, itr), true)
  | (_, (icol_min, jrow_min)) :: _ =>
      assertb (icol_min <? ncol) ;;;
      assertb (jrow_min <? nrow) ;;;
      v <- vget B (icol_min *n nrow +n jrow_min) ;;
      assertb (oltb 0 (fabs v)) ;;;
      B <- sweep ncol nrow icol_min jrow_min B ;;
      flg <- vset flg jrow_min 1%nat ;;
      jrow_new <- vget mc icol_min ;;
      flg <- vset flg jrow_new 0%nat ;;
      mc <- vset mc icol_min jrow_min ;;
      Some (B, mc, flg, None, false)
  end.

(** lp.cpp:92-187, LinPro_SolveTable: (return value, nitr, B, map_col2row).  When the iterations run out the function returns [false], i.e. 0, and nitr is unchanged *)
Definition LinPro_SolveTable (nitr : nat) (B : list F) (mc : list nat) (ncol nrow : nat) : option (nat * nat * list F * list nat) :=
  assertb (0 <? ncol) ;;;
  B <- clear_target ncol nrow mc B ;;
  flg <- set_flags ncol nrow mc ;;
  '(B, mc, _, r) <- forb 0 nitr (lp_iter ncol nrow) (B, mc, flg, None) ;;
  match r with
  | Some (res, itr) => Some (res, itr, B, mc)
  | None => Some (0%nat, nitr, B, mc)
  end.

(** lp.cpp:193-211, CLinPro::GetValid *)
Definition GetValid (p : linpro) : option (list F) :=
  let ncol := neq p +n 1 in
  let nrow := 2 +n nvar p +n nslk p in
  assertb (length (tabA p) =? ncol *n nrow) ;;;
  forn 0 (neq p) (fun icol res =>
    jrow <- vget (mcr p) icol ;;
    if (2 <=? jrow) && (jrow <? 2 +n nvar p) then
      r <- vget (tabA p) (icol *n nrow) ;;
      d <- vget (tabA p) (icol *n nrow +n jrow) ;;
      assertb (oltb 0 (fabs d)) ;;;
      x <- odiv r d ;;
      vset res (jrow -n 2) x
    else Some res) (repeat 0 (nvar p)).

(** lp.cpp:219-258, CLinPro::Solve: (return value, solution, opt_val, nitr).  [sol0] is the vector passed for the solution *)
Definition Solve (p : linpro) (sol0 : list F) (nitr : nat) (aCoeffTrg : list F) : option (nat * list F * F * nat) :=
  let ncol := neq p +n 1 in
  let nrow := 2 +n nvar p +n nslk p in
  assertb (length (tabA p) =? ncol *n nrow) ;;;
  B <- vset (tabA p) ((ncol -n 1) *n nrow +n 1) 1 ;;
  B <- forn 0 (length aCoeffTrg) (fun ic B =>
    c <- vget aCoeffTrg ic ;;
    vset B ((ncol -n 1) *n nrow +n 2 +n ic) (- c)) B ;;
  c <- LinPro_CheckTable B (mcr p) ncol nrow ;;
  assertb c ;;;
  '(res, nitr', B, mc) <- LinPro_SolveTable nitr B (mcr p) ncol nrow ;;
  buff <- forn 0 ncol (fun icol buff =>
    jrow <- vget mc icol ;;
    b <- vget B (icol *n nrow) ;;
    vset buff jrow b) (repeat 0 nrow) ;;
  sol <- forn 0 (nvar p) (fun ivar sol =>
    b <- vget buff (ivar +n 2) ;;
    vset sol ivar b) (vresize 0 sol0 (nvar p)) ;;
  o <- vget buff 1 ;;
  Some (res, sol, o, nitr').

(** lp.cpp:261-271, CLinPro::AddEqn *)
Definition AddEqn (p : linpro) (aW : list F) (r : F) (ty : eqtype) : linpro :=
  mkLP (aEq p ++ [mkEq aW r ty]) (neq p) (nvar p) (nslk p) (nart p) (mcr p) (tabA p).

(** lp.cpp:279-294, the counts and the maps mapEq2Slk and mapEq2Art (None: -1): (nvar, nslk, nart, mapEq2Slk, mapEq2Art) *)
Definition count_eqs (eqs : list ceq) : option (nat * nat * nat * list (option nat) * list (option nat)) :=
  forn 0 (length eqs) (fun ieq s =>
    let '(nv, ns, na, ms, ma) := s in
    e <- vget eqs ieq ;;
    let nv := if nv <? length (aCoeff e) then length (aCoeff e) else nv in
    '(ns, ms) <- match itype e with LE | GE => ms <- vset ms ieq (Some ns) ;; Some (S ns, ms) | EQ => Some (ns, ms) end ;;
    '(na, ma) <- match itype e with
      | LE => if oltb (erhs e) 0 then ma <- vset ma ieq (Some na) ;; Some (S na, ma) else Some (na, ma)
      | GE => if oltb 0 (erhs e) then ma <- vset ma ieq (Some na) ;; Some (S na, ma) else Some (na, ma)
      | EQ => ma <- vset ma ieq (Some na) ;; Some (S na, ma)
      end ;;
    Some (nv, ns, na, ms, ma)) (0%nat, 0%nat, 0%nat, repeat None (length eqs), repeat None (length eqs)).

(** lp.cpp:299-334, the table of the equations *)
Definition fill_table (eqs : list ceq) (nvar nslk nrow : nat) (ms ma : list (option nat)) (A : list F) : option (list F) :=
  forn 0 (length eqs) (fun ieq A =>
    e <- vget eqs ieq ;;
    A <- vset A (ieq *n nrow) (erhs e) ;;
    A <- forn 0 (length (aCoeff e)) (fun ic A =>
      c <- vget (aCoeff e) ic ;;
      vset A (ieq *n nrow +n 2 +n ic) c) A ;;
    oslk <- vget ms ieq ;;
    oart <- vget ma ieq ;;
    match itype e with
    | LE =>
        islk <- oslk ;;
        A <- vset A (ieq *n nrow +n 2 +n nvar +n islk) 1 ;;
        match oart with Some iart => vset A (ieq *n nrow +n 2 +n nvar +n nslk +n iart) (- (1)) | None => Some A end
    | GE =>
        islk <- oslk ;;
        A <- vset A (ieq *n nrow +n 2 +n nvar +n islk) (- (1)) ;;
        match oart with Some iart => vset A (ieq *n nrow +n 2 +n nvar +n nslk +n iart) 1 | None => Some A end
    | EQ =>
        match oart with
        | None => Some A
        | Some iart => vset A (ieq *n nrow +n 2 +n nvar +n nslk +n iart) (if negb (oltb (erhs e) 0) then 1 else - (1))
        end
    end) A.

(** lp.cpp:335-341, the basis of the slack variables *)
Definition slack_basis (neq nvar : nat) (ms : list (option nat)) : option (list nat) :=
  mc <- vset (repeat 0%nat (neq +n 1)) (neq +n 1 -n 1) 1%nat ;;
  forn 0 neq (fun ieq mc =>
    o <- vget ms ieq ;;
    match o with None => Some mc | Some islk => vset mc ieq (2 +n nvar +n islk) end) mc.

(** lp.cpp:346-355, the target row of the first phase and the artificial variables in the basis *)
Definition art_basis (eqs : list ceq) (ncol nrow nvar nslk : nat) (ma : list (option nat)) (A : list F) (mc : list nat) : option (list F * list nat) :=
  A <- vset A ((ncol -n 1) *n nrow +n 1) 1 ;;
  forn 0 (length eqs) (fun ieq s =>
    o <- vget ma ieq ;;
    match o with
    | None => Some s
    | Some iart =>
        let jrow1 := 2 +n nvar +n nslk +n iart in
        A <- vset (fst s) ((ncol -n 1) *n nrow +n jrow1) 1 ;;
        mc <- vset (snd s) ieq jrow1 ;;
        Some (A, mc)
    end) (A, mc).

(** lp.cpp:356-363, the equations with a negative entry of the basis are multiplied by -1 *)
Definition flip_rows (ncol nrow : nat) (mc : list nat) (A : list F) : option (list F) :=
  forn 0 ncol (fun icol A =>
    jrow_dia <- vget mc icol ;;
    d <- vget A (icol *n nrow +n jrow_dia) ;;
    if oltb d 0 then forn 0 nrow (fun jrow A => vmod A (icol *n nrow +n jrow) (fun x => - x)) A
    else Some A) A.

(** lp.cpp:376-382, is a variable that is neither given nor a slack in the basis? *)
Definition art_in_basis (ncol lim : nat) (mc : list nat) : option bool :=
  forb 0 ncol (fun icol (_ : bool) =>
    jrow_dia <- vget mc icol ;;
    let b := (jrow_dia <? 1) || (lim <=? jrow_dia) in
    Some (b, b)) false.

(** lp.cpp:390-396, the columns of the artificial variables are dropped *)
Definition drop_art (ncol nrow nrow1 : nat) (B : list F) : option (list F) :=
  forn 0 ncol (fun icol A =>
    forn 0 nrow1 (fun irow A =>
      b <- vget B (icol *n nrow +n irow) ;;
      vset A (icol *n nrow1 +n irow) b) A) (vresize 0 B (ncol *n nrow1)).

(** lp.cpp:277-398, CLinPro::Precomp: (return value, nitr, object) *)
Definition Precomp (p : linpro) (nitr : nat) : option (nat * nat * linpro) :=
  let eqs := aEq p in
  let neq := length eqs in
  '(nvar, nslk, nart, ms, ma) <- count_eqs eqs ;;
  let ncol := neq +n 1 in
  let nrow := 2 +n nvar +n nslk +n nart in
  let A := vresize 0 (tabA p) (ncol *n nrow) in
  A <- fill_table eqs nvar nslk nrow ms ma A ;;
  mc <- slack_basis neq nvar ms ;;
  if nart =? 0 then Some (0%nat, 0%nat, mkLP eqs neq nvar nslk nart mc A) else
  '(A, mc) <- art_basis eqs ncol nrow nvar nslk ma A mc ;;
  A <- flip_rows ncol nrow mc A ;;
  c <- LinPro_CheckTable A mc ncol nrow ;;
  assertb c ;;;
  '(res, nitr', A, mc) <- LinPro_SolveTable nitr A mc ncol nrow ;;
  c <- LinPro_CheckTable A mc ncol nrow ;;
  assertb c ;;;
  if res =? 2 then Some (2%nat, nitr', mkLP eqs neq nvar nslk nart mc A) else
  bad <- art_in_basis ncol (2 +n nvar +n nslk) mc ;;
  if bad : bool then Some (3%nat, nitr', mkLP eqs neq nvar nslk nart mc A) else
  t <- vget A ((ncol -n 1) *n nrow) ;;
  assertb (oltb (fabs t) e8) ;;;
  A <- drop_art ncol nrow (2 +n nvar +n nslk) A ;;
  Some (0%nat, nitr', mkLP eqs neq nvar nslk nart mc A).
End Model.
Arguments mkEq {F}. Arguments aCoeff {F}. Arguments erhs {F}. Arguments itype {F}.
Arguments mkLP {F}. Arguments aEq {F}. Arguments neq {F}. Arguments nvar {F}. Arguments nslk {F}. Arguments nart {F}. Arguments mcr {F}. Arguments tabA {F}.
Arguments fabs {F}. Arguments LinPro_CheckTable {F}. Arguments row_sub {F}. Arguments clear_target {F}. Arguments set_flags ncol nrow mc : clear implicits.
Arguments is_optim {F}. Arguments min_ratio {F}. Arguments map_insert {F V}. Arguments bound_index {F}. Arguments sweep {F}. Arguments lp_iter {F}. Arguments LinPro_SolveTable {F}.
Arguments GetValid {F}. Arguments Solve {F}. Arguments AddEqn {F}. Arguments count_eqs {F}. Arguments fill_table {F}. Arguments slack_basis neq nvar ms : clear implicits.
Arguments art_basis {F}. Arguments flip_rows {F}. Arguments art_in_basis ncol lim mc : clear implicits. Arguments drop_art {F}. Arguments Precomp {F}.
