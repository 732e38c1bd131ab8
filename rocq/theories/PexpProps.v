(** Theorems about the expression evaluator (C37, C38). *)
From Coq Require Import List Arith ZArith Bool Ascii Lia Reals Lra.
Import ListNotations.
From Verif Require Import Imp PexpModel PexpSpec PexpProofs1 PexpProofs2 PexpProofs3 PexpProofs4.
Open Scope char_scope. Open Scope nat_scope.

Lemma squeeze_nonblank : forall t, squeeze t = nonblank t.
Proof. intros t. unfold squeeze, nonblank. apply filter_ext. intros c. unfold blank. cbn [existsb]. rewrite orb_false_r, orb_assoc. auto. Qed.
Lemma last_app : forall (A : arith) (h1 h2 : list (call A)) x, last_value (h1 ++ h2) x = match last_value h2 x with Some v => Some v | None => last_value h1 x end.
Proof. induction h1 as [|c h1 IH]; intros; cbn [app last_value]; [destruct (last_value h2 x); auto|]. rewrite IH. destruct (last_value h2 x); auto. Qed.

(** After any calls, SetExp on a spelling of a tree whose variables have been given values succeeds; after any further SetKey calls Eval
    returns the tree's value under the values last given.  Signs need a build without assert. *)
Theorem C37_eval : forall (A : arith) dbg sg h1 st l e t h2,
  run dbg h1 (ev0 A) = Some st -> spells sg l e (squeeze t) -> (sg = false \/ dbg = false) ->
  (forall x, In x (vars e) -> last_value h1 x <> None) -> only_keys h2 ->
  exists st1 st2, SetExp A dbg st t = Some (true, st1) /\ run dbg h2 st1 = Some st2 /\
    Eval A dbg st2 = Some (value A (env_of (h1 ++ h2)) e) /\
    (forall x, IsKeyUsed A (m_aKey st2) x = true <-> In x (vars e)).
Proof.
  intros A dbg sg h1 st l e t h2 R Sp SG V O. rewrite squeeze_nonblank in Sp. destruct (run_inv A dbg h1 _ _ (Inv0 A) R) as (I & L).
  assert (L' : forall y, lk A (m_aKey st) y = last_value h1 y) by (intros y; rewrite L; cbn; destruct (last_value h1 y); auto).
  destruct (SetExp_ok A sg dbg st l e t) as (S1 & _); [apply I|auto|intros ->; destruct SG; [discriminate|auto]|].
  destruct S1 as (st1 & E1 & R1 & P1); [intros x Hx; apply lk_in; rewrite L'; auto|]. destruct (SetExp_inv A _ _ _ _ _ I E1) as (I1 & _).
  destruct (run_keys A dbg h2 st1 _ O I1 R1) as (st2 & E2 & I2 & R2). exists st1, st2. split; auto. split; auto. split.
  - rewrite (rep_eval A dbg e) by auto. apply (f_equal (@Some A)). apply value_ext. intros x Hx. destruct (run_inv A dbg h2 _ _ I1 E2) as (_ & L2).
    unfold kenv, env_of. rewrite L2, (lk_names A _ _ P1), L', last_app. auto.
  - intros x. rewrite (rep_used A _ _ x R2). apply varnames_rpn.
Qed.
(** A variable that has no value makes SetExp return false. *)
Theorem C37_unknown : forall (A : arith) dbg sg h1 st l e t x,
  run dbg h1 (ev0 A) = Some st -> spells sg l e (squeeze t) -> (sg = false \/ dbg = false) -> In x (vars e) -> last_value h1 x = None ->
  exists st1, SetExp A dbg st t = Some (false, st1).
Proof.
  intros A dbg sg h1 st l e t x R Sp SG V N. rewrite squeeze_nonblank in Sp. destruct (run_inv A dbg h1 _ _ (Inv0 A) R) as (I & L).
  destruct (SetExp_ok A sg dbg st l e t) as (_ & S1); [apply I|auto|intros ->; destruct SG; [discriminate|auto]|].
  apply S1. exists x. split; auto. rewrite lk_in, L. cbn. rewrite N. auto.
Qed.
(** SetKey is defined after any calls, whether or not an expression was accepted; so is every sequence of SetKey calls. *)
Theorem C37_setkey : forall (A : arith) dbg h st x v, run dbg h (ev0 A) = Some st -> exists st', SetKey A dbg st x v = Some st' /\ m_is_valid st' = m_is_valid st.
Proof.
  intros A dbg h st x v R. destruct (run_inv A dbg h _ _ (Inv0 A) R) as (I & _). destruct (SetKey_inv A dbg st x v I) as (st' & E & _ & M & _). eauto.
Qed.
(** A fully bracketed tree is a spelling. *)
Lemma bracketed_spells : forall sg e, atoms_ok e -> (signs e = true -> sg = true) -> spells sg 10 e (bracketed e).
Proof.
  intros sg. induction e; cbn [atoms_ok signs bracketed]; intros H S.
  - constructor; auto.
  - constructor; apply H.
  - constructor.
  - assert (A : spells sg 10 e1 (bracketed e1)) by (apply IHe1; [apply H|intros K; apply S; rewrite K; auto]). assert (B : spells sg 10 e2 (bracketed e2)) by (apply IHe2; [apply H|intros K; apply S; rewrite K, orb_true_r; auto]).
    econstructor. apply (sp_bin sg o 10 e1 (bracketed e1) 10 e2 (bracketed e2)); auto; destruct o; cbn; lia.
  - econstructor; eauto.
  - assert (A : spells sg 10 e (bracketed e)) by (apply IHe; auto). econstructor. eapply sp_plus; [auto|econstructor; exact A|lia].
  - assert (A : spells sg 10 e (bracketed e)) by (apply IHe; auto). econstructor. eapply sp_minus; [auto|econstructor; exact A|lia].
Qed.
Lemma squeeze_app : forall a b, squeeze (a ++ b) = squeeze a ++ squeeze b.
Proof. intros. apply filter_app. Qed.
Lemma squeeze_bracketed : forall e, atoms_ok e -> squeeze (bracketed e) = bracketed e.
Proof.
  induction e; cbn [atoms_ok bracketed]; intros H.
  - unfold squeeze. destruct H as (_ & H). induction s as [|c s IH]; [auto|]. cbn [filter]. assert (D := H c (or_introl eq_refl)).
    assert (B : existsb (Ascii.eqb c) [" "; "013"; "010"] = false).
    { cbn [existsb]. destruct (Ascii.eqb_spec c " "); [subst; discriminate|]. destruct (Ascii.eqb_spec c "013"); [subst; discriminate|]. destruct (Ascii.eqb_spec c "010"); [subst; discriminate|]. auto. }
    rewrite B. cbn [negb]. f_equal. apply IH. intros d Hd. apply H. right; auto.
  - apply H.
  - reflexivity.
  - destruct H as (H1 & H2). change (squeeze (["("] ++ (bracketed e1 ++ [op_char o] ++ bracketed e2) ++ [")"]) = ["("] ++ (bracketed e1 ++ [op_char o] ++ bracketed e2) ++ [")"]).
    rewrite !squeeze_app, IHe1, IHe2 by auto. destruct o; reflexivity.
  - change (squeeze (fn_name f ++ ["("] ++ bracketed e ++ [")"]) = fn_name f ++ ["("] ++ bracketed e ++ [")"]). rewrite !squeeze_app, IHe by auto. destruct f; reflexivity.
  - change (squeeze (["("; "+"; "("] ++ (bracketed e ++ [")"]) ++ [")"]) = ["("; "+"; "("] ++ (bracketed e ++ [")"]) ++ [")"]). rewrite !squeeze_app, IHe by auto. reflexivity.
  - change (squeeze (["("; "-"; "("] ++ (bracketed e ++ [")"]) ++ [")"]) = ["("; "-"; "("] ++ (bracketed e ++ [")"]) ++ [")"]). rewrite !squeeze_app, IHe by auto. reflexivity.
Qed.
Theorem C37_bracketed : forall (A : arith) dbg h1 st e h2,
  run dbg h1 (ev0 A) = Some st -> atoms_ok e -> (signs e = true -> dbg = false) ->
  (forall x, In x (vars e) -> last_value h1 x <> None) -> only_keys h2 ->
  exists st1 st2, SetExp A dbg st (bracketed e) = Some (true, st1) /\ run dbg h2 st1 = Some st2 /\ Eval A dbg st2 = Some (value A (env_of (h1 ++ h2)) e).
Proof.
  intros A dbg h1 st e h2 R AT SG V O. assert (Sp := bracketed_spells (signs e) e AT (fun H => H)).
  destruct (C37_eval A dbg (signs e) h1 st 10 e (bracketed e) h2) as (s1 & s2 & E1 & E2 & E3 & _); auto.
  - rewrite squeeze_bracketed; auto.
  - destruct (signs e); auto.
  - exists s1, s2. auto.
Qed.
(** With assert compiled in, a leading sign aborts. *)
Theorem C37_sign_refuted : forall (A : arith) st sg l e t c, c = "+" \/ c = "-" -> spells sg l e t -> 6 <= l -> squeeze t = t -> SetExp A true st (c :: t) = None.
Proof.
  intros A st sg l e t c C H L SQ. unfold SetExp. rewrite remove_blanks, <- squeeze_nonblank. cbn [bind].
  assert (E0 : squeeze (c :: t) = c :: t) by (change (c :: t) with ([c] ++ t); rewrite squeeze_app, SQ; destruct C as [-> | ->]; reflexivity). rewrite E0.
  rewrite rb_head by (intros u X; injection X as -> _; destruct C; discriminate). cbn [bind length Nat.eqb MakeRPN vget nth_error sOpe].
  assert (G : GetLowestPriorityOperator true (c :: t) = None); [|rewrite G; reflexivity].
  unfold GetLowestPriorityOperator. rewrite loop_scan. cbn [bind scan].
  assert (E : exists op, gs None 0 c (G None None 10 None None true 0%Z None) = (G None (Some 0) 5 (Some 2) (Some op) true 0%Z None, false)) by (destruct C as [-> | ->]; eexists; reflexivity).
  destruct E as (op & E). rewrite E. destruct (scan_keep sg l e t H (Some c) 1 (G None (Some 0) 5 (Some 2) (Some op) true 0%Z None)) as (g' & E' & (A1 & A2 & A3 & A4 & A5 & A6)); cbn [g_dep g_ret g_prio]; auto; try lia.
  - intros S. exfalso. exact (unsigned sg _ _ _ H L S).
  - rewrite E'. cbn [fst]. cbn in A2, A4, A5, A6. rewrite A1, A2, A4, A5, A6. cbn. rewrite !andb_false_r. reflexivity.
Qed.

(** C38: chains of minus and plus, and of divisions, are read from the right. *)
Theorem C38_chain : forall (A : arith) dbg h st o1 o2 la a ta lb b tb lc c tc,
  run dbg h (ev0 A) = Some st ->
  spells false la a ta -> spells false lb b tb -> spells false lc c tc -> strength o1 = strength o2 -> strength o1 < la -> strength o1 < lb -> strength o1 < lc ->
  squeeze (ta ++ op_char o1 :: tb ++ op_char o2 :: tc) = ta ++ op_char o1 :: tb ++ op_char o2 :: tc ->
  (forall x, In x (vars a ++ vars b ++ vars c) -> last_value h x <> None) ->
  exists st1, SetExp A dbg st (ta ++ op_char o1 :: tb ++ op_char o2 :: tc) = Some (true, st1) /\
    Eval A dbg st1 = Some (value A (env_of h) (Bin o1 a (Bin o2 b c))).
Proof.
  intros A dbg h st o1 o2 la a ta lb b tb lc c tc R Ha Hb Hc S L1 L2 L3 SQ V.
  destruct (C37_eval A dbg false h st (strength o1) (Bin o1 a (Bin o2 b c)) (ta ++ op_char o1 :: tb ++ op_char o2 :: tc) []) as (s1 & s2 & E1 & E2 & E3 & _); auto.
  - rewrite SQ. eapply sp_bin; [exact Ha|eapply sp_bin; [exact Hb|exact Hc|lia|lia]|lia|lia].
  - intros ? [].
  - cbn in E2. injection E2 as <-. rewrite app_nil_r in E3. eauto.
Qed.

(** Exact real arithmetic. *)
Definition dig (c : ascii) : R := INR (nat_of_ascii c - 48).
Definition num_of (s : text) : R := fold_left (fun r c => (10 * r + dig c)%R) s 0%R.     (* whole numbers only *)
Definition Rlt_b (x y : R) : bool := if Rlt_dec x y then true else false.
Program Definition Rarith : arith :=
  Arith R 0%R PI num_of Rplus Rminus Rmult Rdiv Rpower (fun x => Rlt_b (Rabs x) (1 / 10 ^ 20)) (fun x => Rlt_b (1 / 10 ^ 30) x)
    Ropp Rabs (fun x => IZR (Int_part x)) exp sin cos sqrt ln _ _.
Next Obligation. apply Rplus_comm. Qed.
Next Obligation. apply Rmult_comm. Qed.

Lemma ex_num1 : forall c, digit_or_dot c = true -> spells false 10 (Num [c]) [c].
Proof. intros c H. constructor. split; [discriminate|]. intros d [<-|[]]; auto. Qed.
Lemma big : forall x, (1 <= x)%R -> Rlt_b (Rabs x) (1 / 10 ^ 20) = false.
Proof.
  intros x H. unfold Rlt_b. destruct (Rlt_dec _ _) as [L|]; auto. exfalso. rewrite Rabs_right in L by lra.
  assert (K : (1 / 10 ^ 20 <= 1)%R) by (apply Rmult_le_reg_r with (10 ^ 20)%R; [apply pow_lt; lra|]; unfold Rdiv; rewrite Rmult_assoc, Rinv_l by (apply pow_nonzero; lra); rewrite Rmult_1_r, Rmult_1_l; apply pow_R1_Rle; lra). lra.
Qed.
(** "1-2+3" is -4 and not 2; "9-5-2" is 6 and not 2; "8/4/2" is 4 and not 1. *)
Theorem C38_left_refuted : forall dbg,
  (exists st, SetExp Rarith dbg (ev0 Rarith) ["1"; "-"; "2"; "+"; "3"] = Some (true, st) /\ Eval Rarith dbg st = Some (-4)%R /\ (-4 <> 1 - 2 + 3)%R) /\
  (exists st, SetExp Rarith dbg (ev0 Rarith) ["9"; "-"; "5"; "-"; "2"] = Some (true, st) /\ Eval Rarith dbg st = Some 6%R /\ (6 <> 9 - 5 - 2)%R) /\
  (exists st, SetExp Rarith dbg (ev0 Rarith) ["8"; "/"; "4"; "/"; "2"] = Some (true, st) /\ Eval Rarith dbg st = Some 4%R /\ (4 <> 8 / 4 / 2)%R).
Proof.
  intros dbg.
  assert (G : forall o1 o2 x y z, digit_or_dot x = true -> digit_or_dot y = true -> digit_or_dot z = true -> strength o1 = strength o2 -> squeeze [x; op_char o1; y; op_char o2; z] = [x; op_char o1; y; op_char o2; z] ->
    exists st, SetExp Rarith dbg (ev0 Rarith) [x; op_char o1; y; op_char o2; z] = Some (true, st) /\ Eval Rarith dbg st = Some (value Rarith (env_of []) (Bin o1 (Num [x]) (Bin o2 (Num [y]) (Num [z]))))).
  { intros o1 o2 x y z X Y Z S SQ. refine (C38_chain Rarith dbg [] _ o1 o2 10 (Num [x]) [x] 10 (Num [y]) [y] 10 (Num [z]) [z] eq_refl _ _ _ S _ _ _ SQ _); try (apply ex_num1; auto); try (destruct o1; cbn; lia). }
  assert (D : forall c k, nat_of_ascii c - 48 = k -> num_of [c] = INR k) by (intros c k <-; unfold num_of, dig; cbn [fold_left]; lra).
  split; [|split].
  - destruct (G Sub Add "1" "2" "3" eq_refl eq_refl eq_refl eq_refl eq_refl) as (st & E1 & E2). exists st. split; [exact E1|]. split; [|lra]. rewrite E2. cbn [value v_sub v_add v_num Rarith].
    rewrite (D "1" 1 eq_refl), (D "2" 2 eq_refl), (D "3" 3 eq_refl). apply (f_equal (@Some R)). cbn [INR]. lra.
  - destruct (G Sub Sub "9" "5" "2" eq_refl eq_refl eq_refl eq_refl eq_refl) as (st & E1 & E2). exists st. split; [exact E1|]. split; [|lra]. rewrite E2. cbn [value v_sub v_add v_num Rarith].
    rewrite (D "9" 9 eq_refl), (D "5" 5 eq_refl), (D "2" 2 eq_refl). apply (f_equal (@Some R)). cbn [INR]. lra.
  - destruct (G Div Div "8" "4" "2" eq_refl eq_refl eq_refl eq_refl eq_refl) as (st & E1 & E2). exists st. split; [exact E1|]. split; [|lra]. rewrite E2. cbn [value v_div v_small v_num v_zero Rarith].
    rewrite (D "8" 8 eq_refl), (D "4" 4 eq_refl), (D "2" 2 eq_refl). rewrite (big (INR 2)) by (cbn [INR]; lra). rewrite big by (cbn [INR]; lra). apply (f_equal (@Some R)). cbn [INR]. field.
Qed.
Print Assumptions C37_eval.
Print Assumptions C37_unknown.
Print Assumptions C37_setkey.
Print Assumptions C37_bracketed.
Print Assumptions C37_sign_refuted.
Print Assumptions C38_chain.
Print Assumptions C38_left_refuted.

(** The hypotheses are met: x is set, "1" is parsed, then " sin(x*2)^y-3" with x and y set, x changed afterwards. *)
Definition cx : text := ["x"]. Definition cy : text := ["y"].
Definition ex_tree : expr := Bin Sub (Bin Pow (Fn Sin (Bin Mul (Var cx) (Num ["2"]))) (Var cy)) (Num ["3"]).
Definition ex_text : text := [" "; "s"; "i"; "n"; "("; "x"; " "; "*"; "2"; ")"; "^"; "y"; "-"; "3"].
Example C37_example : forall dbg, exists st st1 st2, run dbg [CallKey (A := Rarith) cx 5%R; CallExp ["1"]; CallKey (A := Rarith) cy 2%R] (ev0 Rarith) = Some st /\ spells false 1 ex_tree (squeeze ex_text) /\
  SetExp Rarith dbg st ex_text = Some (true, st1) /\ run dbg [CallKey (A := Rarith) cx 4%R] st1 = Some st2 /\ Eval Rarith dbg st2 = Some (Rpower (sin (4 * num_of ["2"])) 2 - num_of ["3"])%R.
Proof.
  intros dbg. set (h := [CallKey (A := Rarith) cx 5%R; CallExp ["1"]; CallKey (A := Rarith) cy 2%R]).
  assert (N : forall s, numeral s -> spells false 10 (Num s) s) by (intros; constructor; auto).
  assert (I : forall c, ordinary c -> digit_or_dot c = false -> identifier [c]).
  { intros c O D. split; [intros d [<-|[]]; auto|]. split; [exists c; split; auto; left; auto|]. discriminate. }
  assert (Sx : spells false 10 (Var cx) cx) by (constructor; apply I; [intros K; cbn in K; intuition discriminate|reflexivity]).
  assert (Sy : spells false 10 (Var cy) cy) by (constructor; apply I; [intros K; cbn in K; intuition discriminate|reflexivity]).
  assert (R : exists st, run dbg h (ev0 Rarith) = Some st) by (destruct dbg; eexists; reflexivity). destruct R as (st & R).
  assert (Sp : spells false 1 ex_tree (squeeze ex_text)).
  { change (squeeze ex_text) with ((("s" :: "i" :: "n" :: "(" :: (["x"] ++ "*" :: ["2"]) ++ [")"]) ++ "^" :: ["y"]) ++ "-" :: ["3"]).
    apply (sp_bin false Sub 6 _ _ 10 _ _); [|apply ex_num1; reflexivity|cbn; lia|cbn; lia]. apply (sp_bin false Pow 10 _ _ 10 _ _); [|exact Sy|cbn; lia|cbn; lia].
    apply (sp_fn false Sin 3 _ (["x"] ++ "*" :: ["2"])). apply (sp_bin false Mul 10 _ _ 10 _ _); [exact Sx|apply ex_num1; reflexivity|cbn; lia|cbn; lia]. }
  destruct (C37_eval Rarith dbg false h st 1 ex_tree ex_text [CallKey (A := Rarith) cx 4%R] R Sp) as (s1 & s2 & E1 & E2 & E3 & _).
  - auto.
  - intros x Hx. cbn in Hx. destruct Hx as [<-|[<-|[]]]; cbn; discriminate.
  - intros c [<-|[]]; eauto.
  - exists st, s1, s2. split; [exact R|]. split; [exact Sp|]. split; [exact E1|]. split; [exact E2|]. exact E3.
Qed.
