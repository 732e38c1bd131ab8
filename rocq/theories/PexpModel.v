(** Model of /repo/include/delfem2/parse_math_expression.{h,cpp}.  Text is a list of characters.  [dbg] tells whether assert is compiled in.
    Messages on std::cout / std::cerr are left out. *)
From Coq Require Import List Arith ZArith Bool Ascii.
Import ListNotations.
From Verif Require Import Imp.
Open Scope nat_scope.

Definition text := list ascii.
Definition text_eqb (a b : text) : bool := if list_eq_dec ascii_dec a b then true else false.
Open Scope char_scope. Open Scope nat_scope.

(** The arithmetic on double that the evaluator calls: operators, library functions, the two threshold tests, the constant PI and strtod.
    Addition and multiplication commute; nothing else is assumed. *)
Record arith := Arith {
  V :> Type; v_zero : V; v_pi : V; v_num : text -> V;
  v_add : V -> V -> V; v_sub : V -> V -> V; v_mul : V -> V -> V; v_div : V -> V -> V; v_pow : V -> V -> V;
  v_small : V -> bool;   (* fabs(x) < 1.0e-20 *)
  v_pos : V -> bool;     (* x > 1.0e-30 *)
  v_neg : V -> V; v_abs : V -> V; v_floor : V -> V; v_exp : V -> V; v_sin : V -> V; v_cos : V -> V; v_sqrt : V -> V; v_log : V -> V;
  v_add_comm : forall a b, v_add a b = v_add b a; v_mul_comm : forall a b, v_mul a b = v_mul b a }.

Section Eval.
Variable A : arith.

(** parse_math_expression.cpp:18-44 COperand, 46-85 CBinaryOperator, 87-152 CUnaryOperator; [CNull] is a null pointer left by MakeCmdAry. *)
Inductive cmd := COperand (v : A) | CBinary (iopr : nat) | CUnary (iopr : nat) | CNull.

(** parse_math_expression.cpp:54-78 and 94-128 DoOperation.  The stack's back is the head of the list.  back() and pop_back() of an empty vector
    are undefined; the boolean result is not used by the caller and is left out. *)
Definition DoOperation (dbg : bool) (c : cmd) (stack : list A) : option (list A) :=
  match c with
  | COperand v => Some (v :: stack)
  | CBinary iopr =>
      match stack with
      | dright :: dleft :: st =>
          match iopr with
          | 0 => Some (v_add A dleft dright :: st)
          | 1 => Some (v_sub A dright dleft :: st)
          | 2 => Some (v_mul A dleft dright :: st)
          | 3 => if v_small A dleft then Some (v_zero A :: st) else Some (v_div A dright dleft :: st)
          | 4 => Some (v_pow A dright dleft :: st)
          | _ => if dbg then None else Some (dleft :: st)
          end
      | _ => None
      end
  | CUnary iopr =>
      match stack with
      | dright :: st =>
          match iopr with
          | 0 => Some (dright :: st)
          | 1 => Some (v_neg A dright :: st)
          | 2 => Some (v_abs A dright :: st)
          | 8 => Some (v_floor A dright :: st)
          | 3 => Some (v_exp A dright :: st)
          | 4 => Some (v_sin A dright :: st)
          | 5 => Some (v_cos A dright :: st)
          | 6 => if v_pos A dright then Some (v_sqrt A dright :: st) else Some (v_zero A :: st)
          | 7 => if v_pos A dright then Some (v_log A dright :: st) else Some (v_zero A :: st)
          | _ => if dbg then None else Some (dright :: st)
          end
      | _ => None
      end
  | CNull => None
  end.

(** parse_math_expression.cpp:34, 79-84, 145-148 SetValue.  Without assert the operators ignore the value. *)
Definition SetValue (dbg : bool) (c : cmd) (val : A) : option cmd :=
  match c with COperand _ => Some (COperand val) | CNull => None | _ => if dbg then None else Some c end.
End Eval.
Arguments COperand {A}. Arguments CBinary {A}. Arguments CUnary {A}. Arguments CNull {A}.

(** parse_math_expression.cpp:35-39 COperand::GetOprInd; [None] is -1. *)
Definition COperand_GetOprInd (str1 : text) : option nat := if text_eqb str1 ["P"; "I"] then Some 0 else None.
(** parse_math_expression.cpp:133-144 CUnaryOperator::GetOprInd. *)
Definition CUnaryOperator_GetOprInd (str1 : text) : option nat :=
  if text_eqb str1 ["+"] then Some 0
  else if text_eqb str1 ["-"] then Some 1
  else if text_eqb str1 ["a"; "b"; "s"] then Some 2
  else if text_eqb str1 ["f"; "l"; "o"; "o"; "r"] then Some 8
  else if text_eqb str1 ["e"; "x"; "p"] then Some 3
  else if text_eqb str1 ["s"; "i"; "n"] then Some 4
  else if text_eqb str1 ["c"; "o"; "s"] then Some 5
  else if text_eqb str1 ["s"; "q"; "r"; "t"] then Some 6
  else if text_eqb str1 ["l"; "o"; "g"] then Some 7
  else None.

(** parse_math_expression.cpp:156-165 RemoveExpressionSpaceNewline. *)
Definition blank (c : ascii) : bool := Ascii.eqb c " " || Ascii.eqb c "013" || Ascii.eqb c "010".
Definition RemoveExpressionSpaceNewline (exp : text) : option text :=
  '(exp, iexp) <- foldM (fun itemp s =>
    let '(exp, iexp) := s in
    if blank itemp then Some (exp, iexp) else
    exp <- vset exp iexp itemp ;; Some (exp, S iexp)) exp (exp, 0) ;;
  Some (vresize "000" exp iexp).

(** parse_math_expression.cpp:167-185 RemoveExpressionBracket; the recursion shortens the text.  exp[0] of an empty string is the terminator. *)
Fixpoint RemoveExpressionBracket (fuel : nat) (exp : text) : option text :=
  match fuel with
  | 0 => None
  | S fuel =>
      if negb (Ascii.eqb (nth 0 exp "000") "(") then Some exp else
      e <- vget exp (length exp - 1) ;;
      if negb (Ascii.eqb e ")") then Some exp else
      '(iBracketDepth, ret) <- forb 1 (length exp - 1) (fun ipos s =>
        let '(iBracketDepth, ret) := s in
        c <- vget exp ipos ;;
        let iBracketDepth := if Ascii.eqb c "(" then (iBracketDepth + 1)%Z else iBracketDepth in
        let iBracketDepth := if Ascii.eqb c ")" then (iBracketDepth - 1)%Z else iBracketDepth in
        if (iBracketDepth =? 0)%Z then Some ((iBracketDepth, true), true) else Some ((iBracketDepth, ret), false)) (1%Z, false) ;;
      if ret : bool then Some exp else
      let stemp := exp in
      exp <- forn 1 (length exp - 1) (fun ipos exp => c <- vget stemp ipos ;; vset exp (ipos - 1) c) exp ;;
      assertb (2 <=? length exp) ;;;     (* resize to a huge size otherwise *)
      RemoveExpressionBracket fuel (firstn (length exp - 2) exp)
  end.

(** parse_math_expression.cpp:195-358 GetLowestPriorityOperator.  Result: [None] undefined or assert failed, [Some None] a non-zero error code,
    [Some (Some (ibegin, iend, itype, iopr))] success.  [g_ret] is set when the loop returns early; UINT_MAX and -1 are [None]. *)
Record gst := G { g_ret : option (nat * nat * nat * option nat); g_pos : option nat; g_prio : nat; g_type : option nat; g_opr : option nat;
                  g_num : bool; g_dep : Z; g_fb : option nat }.
Definition g_step (exp : text) (ipos_curr : nat) (g : gst) : option (gst * bool) :=
  c <- vget exp ipos_curr ;;
  let cand (prio : nat) (ty : option nat) (op : option nat) (num : bool) : option (gst * bool) :=
    if prio <? g_prio g then Some (G None (Some ipos_curr) prio ty op num (g_dep g) (g_fb g), false)
    else Some (G None (g_pos g) (g_prio g) (g_type g) (g_opr g) num (g_dep g) (g_fb g), false) in
  let sign (op : nat) : option (gst * bool) :=
    if ipos_curr =? 0 then cand 5 (Some 2) (Some op) (g_num g) else
    p <- vget exp (ipos_curr - 1) ;;
    if negb (Ascii.eqb p "*") && negb (Ascii.eqb p "/") && negb (Ascii.eqb p "^") then
      Some (G (Some (ipos_curr, ipos_curr + 1, 3, Some op)) (g_pos g) (g_prio g) (g_type g) (g_opr g) (g_num g) (g_dep g) (g_fb g), true)
    else Some (g, false) in
  if Ascii.eqb c "(" then
    Some (G None (g_pos g) (g_prio g) (g_type g) (g_opr g) (g_num g) (g_dep g + 1)%Z (match g_fb g with None => Some ipos_curr | f => f end), false)
  else if Ascii.eqb c ")" then
    Some (G None (g_pos g) (g_prio g) (g_type g) (g_opr g) (g_num g) (g_dep g - 1)%Z (g_fb g), false)
  else if negb (g_dep g =? 0)%Z then Some (g, false)
  else if Ascii.eqb c "+" then sign 0
  else if Ascii.eqb c "-" then sign 1
  else if Ascii.eqb c "*" then cand 3 (Some 3) (Some 2) (g_num g)
  else if Ascii.eqb c "/" then cand 4 (Some 3) (Some 3) (g_num g)
  else if Ascii.eqb c "^" then cand 6 (Some 3) (Some 4) (g_num g)
  else cand 10 None None
         (if ((nat_of_ascii c <? nat_of_ascii "0") || (nat_of_ascii "9" <? nat_of_ascii c)) && negb (Ascii.eqb c ".") then false else g_num g).
Definition onat_eqb (a b : option nat) : bool := match a, b with Some x, Some y => x =? y | None, None => true | _, _ => false end.
Definition GetLowestPriorityOperator (dbg : bool) (exp : text) : option (option (nat * nat * nat * option nat)) :=
  g <- forb 0 (length exp) (g_step exp) (G None None 10 None None true 0%Z None) ;;
  match g_ret g with
  | Some r => Some (Some r)
  | None =>
    if negb (g_dep g =? 0)%Z then Some None else
    if (onat_eqb (g_pos g) (Some 0) || onat_eqb (g_pos g) (Some (length exp - 1))) && onat_eqb (g_type g) (Some 3) then Some None else
    if onat_eqb (g_fb g) (Some 0) && onat_eqb (g_pos g) None then Some None else
    match g_pos g with
    | Some ipos_min =>
        assertb (negb dbg || onat_eqb (g_type g) (Some 3)) ;;;
        assertb (negb dbg || negb (onat_eqb (g_opr g) None)) ;;;
        ty <- g_type g ;;
        Some (Some (ipos_min, ipos_min + 1, ty, g_opr g))
    | None =>
        match g_num g, g_fb g with
        | false, Some iFirstBracket =>
            e <- vget exp (length exp - 1) ;;
            if negb (Ascii.eqb e ")") then Some None else
            if iFirstBracket =? length exp - 2 then Some None else
            match CUnaryOperator_GetOprInd (firstn iFirstBracket exp) with
            | Some iopr0 => Some (Some (0, iFirstBracket, 2, Some iopr0))
            | None => Some None
            end
        | num, _ =>
            if num then Some (Some (0, length exp, 0, None))
            else match COperand_GetOprInd exp with
                 | Some iopr0 => Some (Some (0, length exp, 1, Some iopr0))
                 | None => Some (Some (0, length exp, 1, None))
                 end
        end
    end
  end.

(** parse_math_expression.cpp:360-364 SExpCompo. *)
Record compo := Compo { sOpe : text; iOpeType : nat; iOpe : option nat }.
Definition compo0 : compo := Compo [] 0 None.     (* members of a fresh SExpCompo are indeterminate; never read before being set *)
Definition opr_ok (itype : nat) (iopr : option nat) : bool :=
  match iopr with Some i => ((itype =? 2) && (i <=? 8)) || ((itype =? 3) && (i <=? 4)) | None => false end.

(** parse_math_expression.cpp:366-430 MakeRPN; result: success flag and the vector. *)
Fixpoint MakeRPN (dbg : bool) (fuel : nat) (icur_old : nat) (vec : list compo) : option (bool * list compo) :=
  match fuel with
  | 0 => None
  | S fuel =>
      cur <- vget vec icur_old ;;
      let cur_exp := sOpe cur in
      r <- GetLowestPriorityOperator dbg cur_exp ;;
      match r with
      | None => Some (false, vec)
      | Some (itmp0, itmp1, itmp2, itmp3) =>
          if (itmp0 =? 0) && (itmp1 =? length cur_exp) then
            assertb (negb dbg || (itmp2 <=? 1)) ;;;
            vec <- vset vec icur_old (Compo cur_exp itmp2 itmp3) ;;
            Some (true, vec)
          else
            assertb (negb dbg || (2 <=? itmp2)) ;;;
            assertb (negb dbg || (itmp2 <=? 3)) ;;;
            assertb (negb dbg || opr_ok itmp2 itmp3) ;;;
            left <- RemoveExpressionBracket (S (length cur_exp)) (skipn itmp1 cur_exp) ;;
            vec <- vset vec icur_old (Compo left (iOpeType cur) (iOpe cur)) ;;
            if length left =? 0 then Some (false, vec) else
            '(ok, vec) <- MakeRPN dbg fuel icur_old vec ;;
            if negb ok then Some (false, vec) else
            '(ok, vec) <- (if 0 <? itmp0 then
                let iright := length vec in
                right <- RemoveExpressionBracket (S (length cur_exp)) (firstn itmp0 cur_exp) ;;
                let vec := vec ++ [Compo right 0 None] in
                if length right =? 0 then Some (false, vec) else MakeRPN dbg fuel iright vec
              else Some (true, vec)) ;;
            if negb ok then Some (false, vec) else
            Some (true, vec ++ [Compo (firstn (itmp1 - itmp0) (skipn itmp0 cur_exp)) itmp2 itmp3])
      end
  end.

Section Class.
Variable A : arith.
(** parse_math_expression.h:29-36 CKey. *)
Record ckey := CKey { m_Name : text; m_aiCmd : list nat; m_Val : A }.
(** parse_math_expression.h:44-71 CMathExpressionEvaluator (m_sExp is never read). *)
Record evaluator := Ev { m_is_valid : bool; m_apCmd : list (cmd A); m_aKey : list ckey }.
Definition ev0 : evaluator := Ev false [] [].

(** parse_math_expression.cpp:447-454: find the key of that name and record the command index. *)
Fixpoint use_key (keys : list ckey) (name : text) (iexp : nat) : option (list ckey) :=
  match keys with
  | [] => None
  | k :: keys => if text_eqb (m_Name k) name then Some (CKey (m_Name k) (m_aiCmd k ++ [iexp]) (m_Val k) :: keys)
                 else keys' <- use_key keys name iexp ;; Some (k :: keys')
  end.
(** parse_math_expression.cpp:432-482 MakeCmdAry; result: success, cmd_vec, keys.  strtod is [v_num]; the branch on errno (ERANGE, also if it was
    left set by an earlier library call) is not modelled: numerals are taken to be in range and errno to be clear. *)
Definition MakeCmdAry (dbg : bool) (keys : list ckey) (vec : list compo) : option (bool * list (cmd A) * list ckey) :=
  forb 0 (length vec) (fun iexp s =>
    let '(_, cmds, keys) := s in
    c <- vget vec iexp ;;
    if iOpeType c =? 0 then cmds <- vset cmds iexp (COperand (v_num A (sOpe c))) ;; Some ((true, cmds, keys), false)
    else if iOpeType c =? 1 then
      match iOpe c with
      | None =>
          match use_key keys (sOpe c) iexp with
          | None => Some ((false, cmds, keys), true)
          | Some keys => cmds <- vset cmds iexp (COperand (v_zero A)) ;; Some ((true, cmds, keys), false)
          end
      | Some iopr0 => assertb (negb dbg || (iopr0 =? 0)) ;;; cmds <- vset cmds iexp (COperand (v_pi A)) ;; Some ((true, cmds, keys), false)
      end
    else if iOpeType c =? 2 then i <- iOpe c ;; cmds <- vset cmds iexp (CUnary i) ;; Some ((true, cmds, keys), false)
    else if iOpeType c =? 3 then i <- iOpe c ;; cmds <- vset cmds iexp (CBinary i) ;; Some ((true, cmds, keys), false)
    else assertb (negb dbg) ;;; Some ((true, cmds, keys), false)) (true, repeat CNull (length vec), keys).

(** parse_math_expression.cpp:498-503 and 573-580: write a value to the commands of a key. *)
Definition set_cmds (dbg : bool) (idx : list nat) (val : A) (cmds : list (cmd A)) : option (list (cmd A)) :=
  foldM (fun icmd0 cmds => c <- vget cmds icmd0 ;; c <- SetValue A dbg c val ;; vset cmds icmd0 c) idx cmds.

(** parse_math_expression.cpp:494-510 SetKey. *)
Fixpoint SetKey_keys (dbg : bool) (pre keys : list ckey) (cmds : list (cmd A)) (key_name : text) (key_val : A) : option (list ckey * list (cmd A)) :=
  match keys with
  | [] => Some (pre ++ [CKey key_name [] key_val], cmds)
  | k :: keys => if text_eqb (m_Name k) key_name then
                   cmds <- set_cmds dbg (m_aiCmd k) key_val cmds ;; Some (pre ++ CKey (m_Name k) (m_aiCmd k) key_val :: keys, cmds)
                 else SetKey_keys dbg (pre ++ [k]) keys cmds key_name key_val
  end.
Definition SetKey (dbg : bool) (e : evaluator) (key_name : text) (key_val : A) : option evaluator :=
  '(keys, cmds) <- SetKey_keys dbg [] (m_aKey e) (m_apCmd e) key_name key_val ;; Some (Ev (m_is_valid e) cmds keys).

(** parse_math_expression.cpp:512-584 SetExp; result: the returned flag and the new state. *)
Definition SetExp (dbg : bool) (e : evaluator) (exp : text) : option (bool * evaluator) :=
  let keys := map (fun k => CKey (m_Name k) [] (m_Val k)) (m_aKey e) in
  tmp_exp <- RemoveExpressionSpaceNewline exp ;;
  tmp_exp <- RemoveExpressionBracket (S (length tmp_exp)) tmp_exp ;;
  if length tmp_exp =? 0 then Some (false, Ev false [] keys) else
  '(ok, vec) <- MakeRPN dbg (S (length tmp_exp)) 0 [Compo tmp_exp 0 None] ;;
  if negb ok then Some (false, Ev false [] keys) else
  '(ok, cmds, keys) <- MakeCmdAry dbg keys vec ;;
  if negb ok then Some (false, Ev false cmds keys) else
  cmds <- foldM (fun key cmds => set_cmds dbg (m_aiCmd key) (m_Val key) cmds) keys cmds ;;
  Some (true, Ev true cmds keys).

(** parse_math_expression.cpp:586-594 Eval. *)
Definition Eval (dbg : bool) (e : evaluator) : option A :=
  stack <- foldM (fun icmd stack => DoOperation A dbg icmd stack) (m_apCmd e) [] ;;
  assertb (negb dbg || (length stack =? 1)) ;;;
  vget (rev stack) 0.

(** parse_math_expression.h:54-62 IsKeyUsed. *)
Fixpoint IsKeyUsed (keys : list ckey) (key_name : text) : bool :=
  match keys with
  | [] => false
  | k :: keys => if text_eqb (m_Name k) key_name then negb (length (m_aiCmd k) =? 0) else IsKeyUsed keys key_name
  end.
End Class.
Arguments CKey {A}. Arguments m_Name {A}. Arguments m_aiCmd {A}. Arguments m_Val {A}. Arguments Ev {A}. Arguments m_is_valid {A}. Arguments m_apCmd {A}. Arguments m_aKey {A}.
