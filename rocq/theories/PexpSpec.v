(** Specification vocabulary for the expression evaluator: expression trees, their values and their spellings. *)
From Coq Require Import List Arith Bool Ascii.
Import ListNotations.
From Verif Require Import PexpModel.
Open Scope char_scope. Open Scope nat_scope.

Inductive bop := Add | Sub | Mul | Div | Pow.
Inductive fname := Abs | Floor | Exp | Sin | Cos | Sqrt | Log.
Inductive expr :=
  | Num (s : text) | Var (x : text) | Pi | Bin (o : bop) (a b : expr) | Fn (f : fname) (a : expr) | Plus (a : expr) | Minus (a : expr).

(** Value of a tree, given the values of the variables.  Division by a number below 1e-20 in size and roots and logarithms of numbers not
    above 1e-30 are 0. *)
Section Value.
Variable A : arith.
Fixpoint value (env : text -> A) (e : expr) : A :=
  match e with
  | Num s => v_num A s
  | Var x => env x
  | Pi => v_pi A
  | Bin Add a b => v_add A (value env a) (value env b)
  | Bin Sub a b => v_sub A (value env a) (value env b)
  | Bin Mul a b => v_mul A (value env a) (value env b)
  | Bin Div a b => if v_small A (value env b) then v_zero A else v_div A (value env a) (value env b)
  | Bin Pow a b => v_pow A (value env a) (value env b)
  | Fn Abs a => v_abs A (value env a)
  | Fn Floor a => v_floor A (value env a)
  | Fn Exp a => v_exp A (value env a)
  | Fn Sin a => v_sin A (value env a)
  | Fn Cos a => v_cos A (value env a)
  | Fn Sqrt a => if v_pos A (value env a) then v_sqrt A (value env a) else v_zero A
  | Fn Log a => if v_pos A (value env a) then v_log A (value env a) else v_zero A
  | Plus a => value env a
  | Minus a => v_neg A (value env a)
  end.
End Value.
Fixpoint vars (e : expr) : list text :=
  match e with Var x => [x] | Bin _ a b => vars a ++ vars b | Fn _ a | Plus a | Minus a => vars a | _ => [] end.

(** Characters. *)
Definition digit_or_dot (c : ascii) : bool := ((nat_of_ascii "0" <=? nat_of_ascii c) && (nat_of_ascii c <=? nat_of_ascii "9")) || Ascii.eqb c ".".
Definition ordinary (c : ascii) : Prop := ~ In c ["("; ")"; "+"; "-"; "*"; "/"; "^"].
Definition numeral (s : text) : Prop := s <> [] /\ forall c, In c s -> digit_or_dot c = true.
Definition identifier (s : text) : Prop := (forall c, In c s -> ordinary c) /\ (exists c, In c s /\ digit_or_dot c = false) /\ s <> ["P"; "I"].
Definition op_char (o : bop) : ascii := match o with Add => "+" | Sub => "-" | Mul => "*" | Div => "/" | Pow => "^" end.
Definition fn_name (f : fname) : text :=
  match f with Abs => ["a"; "b"; "s"] | Floor => ["f"; "l"; "o"; "o"; "r"] | Exp => ["e"; "x"; "p"] | Sin => ["s"; "i"; "n"]
             | Cos => ["c"; "o"; "s"] | Sqrt => ["s"; "q"; "r"; "t"] | Log => ["l"; "o"; "g"] end.
(** Binding strength: sums and differences bind weakest, then products, quotients, signs, powers. *)
Definition strength (o : bop) : nat := match o with Add => 1 | Sub => 1 | Mul => 3 | Div => 4 | Pow => 6 end.

(** [spells sg l e t]: the text [t], without blanks, spells the tree [e], and its outermost operator has strength [l] (5 for a sign, 10 for an atom).
    Every operator groups to the RIGHT: a left operand of the same strength needs brackets, a right operand does not.
    Signs are allowed if [sg]. *)
Inductive spells (sg : bool) : nat -> expr -> text -> Prop :=
  | sp_num : forall s, numeral s -> spells sg 10 (Num s) s
  | sp_var : forall x, identifier x -> spells sg 10 (Var x) x
  | sp_pi : spells sg 10 Pi ["P"; "I"]
  | sp_fn : forall f l e t, spells sg l e t -> spells sg 10 (Fn f e) (fn_name f ++ "(" :: t ++ [")"])
  | sp_par : forall l e t, spells sg l e t -> spells sg 10 e ("(" :: t ++ [")"])
  | sp_bin : forall o la a ta lb b tb, spells sg la a ta -> spells sg lb b tb -> strength o < la -> (strength o <= lb \/ (o = Pow /\ lb = 5)) ->
      spells sg (strength o) (Bin o a b) (ta ++ op_char o :: tb)
  | sp_plus : forall l e t, sg = true -> spells sg l e t -> 6 <= l -> spells sg 5 (Plus e) ("+" :: t)
  | sp_minus : forall l e t, sg = true -> spells sg l e t -> 6 <= l -> spells sg 5 (Minus e) ("-" :: t).

(** Calls made on an evaluator. *)
Inductive call (A : arith) := CallKey (name : text) (val : A) | CallExp (t : text).
Arguments CallKey {A}. Arguments CallExp {A}.
(** The value last given to a variable. *)
Fixpoint last_value {A : arith} (h : list (call A)) (x : text) : option A :=
  match h with
  | [] => None
  | c :: h => match last_value h x with Some v => Some v | None => match c with CallKey y v => if list_eq_dec ascii_dec y x then Some v else None | _ => None end end
  end.
Definition env_of {A : arith} (h : list (call A)) (x : text) : A := match last_value h x with Some v => v | None => v_zero A end.
(** State after a sequence of calls on a fresh evaluator; [None] if some call is undefined. *)
Fixpoint run {A : arith} (dbg : bool) (h : list (call A)) (e : evaluator A) : option (evaluator A) :=
  match h with
  | [] => Some e
  | CallKey x v :: h => match SetKey A dbg e x v with Some e => run dbg h e | None => None end
  | CallExp t :: h => match SetExp A dbg e t with Some (_, e) => run dbg h e | None => None end
  end.
Definition only_keys {A : arith} (h : list (call A)) : Prop := forall c, In c h -> exists x v, c = CallKey x v.
(** The text without spaces, carriage returns and line feeds. *)
Definition squeeze (t : text) : text := filter (fun c => negb (existsb (Ascii.eqb c) [" "; "013"; "010"])) t.
(** A tree written with brackets around every operator application. *)
Fixpoint bracketed (e : expr) : text :=
  match e with
  | Num s => s
  | Var x => x
  | Pi => ["P"; "I"]
  | Bin o a b => "(" :: (bracketed a ++ op_char o :: bracketed b) ++ [")"]
  | Fn f a => fn_name f ++ "(" :: bracketed a ++ [")"]
  | Plus a => "(" :: ("+" :: "(" :: bracketed a ++ [")"]) ++ [")"]
  | Minus a => "(" :: ("-" :: "(" :: bracketed a ++ [")"]) ++ [")"]
  end.
(** Numerals are made of digits and dots; names contain no bracket, operator character or blank, are not numerals and not PI. *)
Fixpoint atoms_ok (e : expr) : Prop :=
  match e with
  | Num s => numeral s
  | Var x => identifier x /\ squeeze x = x
  | Pi => True
  | Bin _ a b => atoms_ok a /\ atoms_ok b
  | Fn _ a | Plus a | Minus a => atoms_ok a
  end.
Fixpoint signs (e : expr) : bool :=
  match e with Bin _ a b => signs a || signs b | Fn _ a => signs a | Plus _ | Minus _ => true | _ => false end.
