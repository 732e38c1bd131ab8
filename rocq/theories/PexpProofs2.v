(** From text to reverse Polish form. *)
From Coq Require Import List Arith ZArith Bool Ascii Lia.
Import ListNotations.
From Verif Require Import Imp PexpModel PexpSpec PexpProofs1.
Open Scope char_scope. Open Scope nat_scope.

(** Texts without an outer pair of brackets. *)
Inductive bare (sg : bool) : expr -> text -> Prop :=
  | b_num : forall s, numeral s -> bare sg (Num s) s
  | b_var : forall x, identifier x -> bare sg (Var x) x
  | b_pi : bare sg Pi ["P"; "I"]
  | b_fn : forall f l e t, spells sg l e t -> bare sg (Fn f e) (fn_name f ++ "(" :: t ++ [")"])
  | b_bin : forall o la a ta lb b tb, spells sg la a ta -> spells sg lb b tb -> strength o < la -> (strength o <= lb \/ (o = Pow /\ lb = 5)) ->
      bare sg (Bin o a b) (ta ++ op_char o :: tb)
  | b_plus : forall l e t, sg = true -> spells sg l e t -> 6 <= l -> bare sg (Plus e) ("+" :: t)
  | b_minus : forall l e t, sg = true -> spells sg l e t -> 6 <= l -> bare sg (Minus e) ("-" :: t).

Definition op_ind (o : bop) : nat := match o with Add => 0 | Sub => 1 | Mul => 2 | Div => 3 | Pow => 4 end.
Definition fn_ind (f : fname) : nat := match f with Abs => 2 | Floor => 8 | Exp => 3 | Sin => 4 | Cos => 5 | Sqrt => 6 | Log => 7 end.

Section G.
Variable sg : bool.
Lemma level_cases : forall l e t, spells sg l e t -> l = 1 \/ 3 <= l.
Proof. destruct 1; try lia. destruct o; cbn; lia. Qed.

Lemma glpo_bin : forall dbg o la a ta lb b tb, spells sg la a ta -> spells sg lb b tb -> strength o < la -> (strength o <= lb \/ (o = Pow /\ lb = 5)) ->
  GetLowestPriorityOperator dbg (ta ++ op_char o :: tb) = Some (Some (length ta, length ta + 1, 3, Some (op_ind o))).
Proof.
  intros dbg o la a ta lb b tb Ha Hb L1 L2. unfold GetLowestPriorityOperator. rewrite loop_scan. cbn [bind].
  assert (L3 : 3 <= la) by (destruct (level_cases _ _ _ Ha); destruct o; cbn in L1; lia).
  destruct (scan_first sg la a ta Ha L3) as (g1 & E1 & R1 & D1 & P1). change (G None None 10 None None true 0%Z None) with g0. rewrite scan_app, E1.
  destruct (spells_last sg _ _ _ Ha None) as (p & Ep & Mp). rewrite Ep. cbn [scan]. rewrite Nat.add_0_l.
  assert (Na : ta <> []) by (eapply spells_nonempty; eauto). assert (Nb : tb <> []) by (eapply spells_nonempty; eauto).
  assert (La : 0 < length ta) by (destruct ta; [congruence|cbn; lia]). assert (Lb : 0 < length tb) by (destruct tb; [congruence|cbn; lia]).
  assert (C : o = Add \/ o = Sub \/ (o = Mul \/ o = Div \/ o = Pow)) by (destruct o; auto). destruct C as [->|[->|NA]].
  - unfold gs. cbn [op_char Ascii.eqb Bool.eqb]. rewrite D1. cbn [Z.eqb negb]. rewrite Mp. reflexivity.
  - unfold gs. cbn [op_char Ascii.eqb Bool.eqb]. rewrite D1. cbn [Z.eqb negb]. rewrite Mp. reflexivity.
  - assert (E2 : forall pv ps, gs pv ps (op_char o) g1 = (G None (Some ps) (strength o) (Some 3) (Some (op_ind o)) (g_num g1) 0%Z (g_fb g1), false)).
    { intros pv ps. unfold gs. rewrite D1. destruct NA as [->|[->| ->]]; cbn [op_char Ascii.eqb Bool.eqb Z.eqb negb]; unfold gcand; cbn [strength] in *;
      rewrite (proj2 (Nat.ltb_lt _ _)) by lia; rewrite D1; auto. }
    rewrite E2. edestruct (scan_keep sg lb b tb Hb (Some (op_char o)) (S (length ta))) as (g2 & E3 & (A1 & A2 & A3 & A4 & A5 & A6)); [| | | | |rewrite E3].
    + reflexivity.
    + reflexivity.
    + cbn. destruct NA as [->|[->| ->]]; cbn; lia.
    + cbn [g_prio]. destruct L2 as [H2|(-> & ->)]; [left; lia|]. right. auto.
    + intros _. exists (op_char o). split; auto. destruct NA as [->|[->| ->]]; auto.
    + cbn [fst]. cbn in A2, A4, A5, A6. rewrite A1, A2, A4, A5, A6. cbn [Z.eqb negb onat_eqb]. rewrite app_length. cbn [length].
      rewrite (proj2 (Nat.eqb_neq (length ta) 0)) by lia. rewrite (proj2 (Nat.eqb_neq _ _)) by lia. cbn [orb andb]. rewrite andb_false_r.
      rewrite Nat.eqb_refl, !orb_true_r. reflexivity.
Qed.
Lemma glpo_sign : forall c op l e t, (c = "+" /\ op = 0) \/ (c = "-" /\ op = 1) -> spells sg l e t -> 6 <= l ->
  GetLowestPriorityOperator false (c :: t) = Some (Some (0, 1, 2, Some op)).
Proof.
  intros c op l e t C H L. unfold GetLowestPriorityOperator. rewrite loop_scan. cbn [bind scan].
  assert (E : gs None 0 c (G None None 10 None None true 0%Z None) = (G None (Some 0) 5 (Some 2) (Some op) true 0%Z None, false)) by (destruct C as [(-> & ->)|(-> & ->)]; reflexivity).
  rewrite E. destruct (scan_keep sg l e t H (Some c) 1 (G None (Some 0) 5 (Some 2) (Some op) true 0%Z None)) as (g' & E' & (A1 & A2 & A3 & A4 & A5 & A6)); cbn [g_dep g_ret g_prio]; auto; try lia.
  - intros S. exfalso. exact (unsigned sg _ _ _ H L S).
  - rewrite E'. cbn [fst]. cbn in A2, A4, A5, A6. rewrite A1, A2, A4, A5, A6. cbn. rewrite !andb_false_r. destruct (g_fb g') as [[|n]|]; reflexivity.
Qed.
Lemma glpo_num : forall dbg s, numeral s -> GetLowestPriorityOperator dbg s = Some (Some (0, length s, 0, None)).
Proof.
  intros dbg s (N & H). unfold GetLowestPriorityOperator. rewrite loop_scan. cbn [bind].
  rewrite scan_ordinary; [|intros c Hc; apply digit_ordinary, H; auto|auto|auto|cbn; lia]. cbn [fst g_ret g_dep g_pos g_type g_fb g_num Z.eqb negb onat_eqb orb andb].
  rewrite (proj2 (forallb_forall _ _)); [reflexivity|]. intros c Hc. apply negb_true_iff, digit_ordinary, H; auto.
Qed.
Lemma not_all_num : forall s c, In c s -> digit_or_dot c = false -> forallb (fun c => negb (nonnum c)) s = false.
Proof.
  intros s c Hc D. destruct (forallb _ s) eqn:E; auto. rewrite forallb_forall in E. specialize (E c Hc). cbv beta in E. rewrite (nondigit_nonnum c D) in E. discriminate.
Qed.
Lemma glpo_var : forall dbg s, identifier s -> GetLowestPriorityOperator dbg s = Some (Some (0, length s, 1, None)).
Proof.
  intros dbg s (O & (c & Hc & D) & NP). unfold GetLowestPriorityOperator. rewrite loop_scan. cbn [bind].
  rewrite scan_ordinary; [|auto|auto|auto|cbn; lia]. cbn [fst g_ret g_dep g_pos g_type g_fb g_num Z.eqb negb onat_eqb orb andb].
  rewrite (not_all_num s c) by auto. unfold COperand_GetOprInd. rewrite text_eqb_false by auto. reflexivity.
Qed.
Lemma glpo_pi : forall dbg, GetLowestPriorityOperator dbg ["P"; "I"] = Some (Some (0, 2, 1, Some 0)).
Proof. intros. reflexivity. Qed.
Lemma fn_ind_ok : forall f, CUnaryOperator_GetOprInd (fn_name f) = Some (fn_ind f).
Proof. destruct f; reflexivity. Qed.
Lemma glpo_fn : forall dbg f l e t, spells sg l e t -> GetLowestPriorityOperator dbg (fn_name f ++ "(" :: t ++ [")"]) = Some (Some (0, length (fn_name f), 2, Some (fn_ind f))).
Proof.
  intros dbg f l e t H. unfold GetLowestPriorityOperator. rewrite loop_scan. cbn [bind]. rewrite scan_app.
  rewrite scan_ordinary; [|intros c Hc; apply (fn_ordinary f); auto|auto|auto|cbn; lia]. rewrite scan_group; auto; [|eapply spells_inert; eauto].
  cbn [fst g_ret g_dep g_pos g_type g_fb g_num Z.eqb negb onat_eqb orb andb Nat.add].
  assert (NF : exists c r, fn_name f = c :: r) by (destruct f; cbn; eauto). destruct NF as (c & r & NF).
  rewrite (not_all_num (fn_name f) c); [|rewrite NF; left; auto|apply (fn_ordinary f); rewrite NF; left; auto].
  assert (L : length (fn_name f) =? 0 = false) by (rewrite NF; reflexivity). rewrite L. cbn [andb].
  assert (Lt : 0 < length t) by (apply spells_nonempty in H; destruct t; [congruence|cbn; lia]).
  change (fn_name f ++ "(" :: t ++ [")"]) with (fn_name f ++ ("(" :: t) ++ [")"]). rewrite app_assoc.
  rewrite (vget_nth _ "000") by (rewrite !app_length; cbn; lia). rewrite app_nth2 by (rewrite !app_length; cbn; lia).
  rewrite !app_length. cbn [length]. replace (length (fn_name f) + S (length t) + 1 - 1 - (length (fn_name f) + S (length t))) with 0 by lia. cbn [nth bind Ascii.eqb Bool.eqb negb].
  rewrite (proj2 (Nat.eqb_neq _ _)) by lia. rewrite <- app_assoc, firstn_app, Nat.sub_diag, firstn_all. cbn [firstn]. rewrite app_nil_r, fn_ind_ok. reflexivity.
Qed.
End G.

(** ---- removing outer brackets ---- *)
Definition dstep (d : Z) (c : ascii) : Z := (let d := if Ascii.eqb c "(" then d + 1 else d in if Ascii.eqb c ")" then d - 1 else d)%Z.
Fixpoint dscan (d : Z) (l : text) : Z * bool :=
  match l with [] => (d, false) | c :: l => if (dstep d c =? 0)%Z then (0%Z, true) else dscan (dstep d c) l end.
Fixpoint dsum (l : text) : Z := match l with [] => 0%Z | c :: l => (dstep 0 c + dsum l)%Z end.
Lemma dstep_add : forall d c, dstep d c = (d + dstep 0 c)%Z.
Proof. intros. unfold dstep. destruct (Ascii.eqb c "("), (Ascii.eqb c ")"); lia. Qed.
Lemma dsum_app : forall a b, dsum (a ++ b) = (dsum a + dsum b)%Z.
Proof. induction a; intros; cbn [app dsum]; [auto|]. rewrite IHa. lia. Qed.
Lemma dscan_sum : forall l d, snd (dscan d l) = false -> fst (dscan d l) = (d + dsum l)%Z /\ (l <> [] -> fst (dscan d l) <> 0%Z).
Proof.
  induction l as [|c l IH]; intros d H; cbn [dscan dsum] in *.
  - cbn. split; [lia|congruence].
  - destruct (Z.eqb_spec (dstep d c) 0); [discriminate|]. destruct (IH _ H) as (A & B). split; [rewrite A, dstep_add; lia|]. intros _.
    destruct l; [cbn; auto|]. apply B. discriminate.
Qed.
Lemma dscan_app : forall a b d, dscan d (a ++ b) = let '(d', h) := dscan d a in if h then (d', true) else dscan d' b.
Proof. induction a as [|c a IH]; intros; cbn [app dscan]; [auto|]. destruct (_ =? 0)%Z; auto. Qed.
Definition dinert (t : text) : Prop := forall d, (0 < d)%Z -> dscan d t = (d, false).
Lemma dinert_plain : forall t, (forall c, In c t -> bracket c = false) -> dinert t.
Proof.
  induction t as [|c t IH]; intros H d D; [auto|]. cbn [dscan]. assert (C := H c (or_introl eq_refl)). apply orb_false_iff in C. destruct C as (C1 & C2).
  unfold dstep. rewrite C1, C2. rewrite (proj2 (Z.eqb_neq _ _)) by lia. apply IH; auto. intros; apply H; right; auto.
Qed.
Lemma dinert_app : forall a b, dinert a -> dinert b -> dinert (a ++ b).
Proof. intros a b A B d D. rewrite dscan_app, (A d D). apply B; auto. Qed.
Lemma dinert_par : forall t, dinert t -> dinert ("(" :: t ++ [")"]).
Proof.
  intros t H d D. cbn [dscan]. change (dstep d "(") with (d + 1)%Z. rewrite (proj2 (Z.eqb_neq _ _)) by lia. rewrite dscan_app, H by lia.
  cbn [dscan]. change (dstep (d + 1) ")") with (d + 1 - 1)%Z. replace (d + 1 - 1)%Z with d by lia. rewrite (proj2 (Z.eqb_neq _ _)) by lia. auto.
Qed.
Lemma dinert_sum : forall t, dinert t -> dsum t = 0%Z.
Proof. intros t H. assert (E := H 1%Z ltac:(lia)). destruct (dscan_sum t 1%Z) as (A & _); [rewrite E; auto|]. rewrite E in A. cbn [fst] in A. lia. Qed.
Lemma spells_dinert : forall sg l e t, spells sg l e t -> dinert t.
Proof.
  induction 1.
  - apply dinert_plain. intros c Hc. apply ordinary_mdp. apply digit_ordinary. apply H; auto.
  - apply dinert_plain. intros c Hc. apply ordinary_mdp. apply H; auto.
  - apply dinert_plain. intros c [<-|[<-|[]]]; auto.
  - apply dinert_app; [apply dinert_plain; intros c Hc; apply ordinary_mdp; apply (fn_ordinary f); auto|apply dinert_par; auto].
  - apply dinert_par; auto.
  - apply dinert_app; auto. change (op_char o :: tb) with ([op_char o] ++ tb). apply dinert_app; auto. apply dinert_plain. intros c [<-|[]]. destruct o; auto.
  - change ("+" :: t) with (["+"] ++ t). apply dinert_app; auto. apply dinert_plain. intros c [<-|[]]. auto.
  - change ("-" :: t) with (["-"] ++ t). apply dinert_app; auto. apply dinert_plain. intros c [<-|[]]. auto.
Qed.

Definition rb_step (exp : text) (ipos : nat) (s : Z * bool) : option ((Z * bool) * bool) :=
  let '(iBracketDepth, ret) := s in
  c <- vget exp ipos ;;
  let iBracketDepth := if Ascii.eqb c "(" then (iBracketDepth + 1)%Z else iBracketDepth in
  let iBracketDepth := if Ascii.eqb c ")" then (iBracketDepth - 1)%Z else iBracketDepth in
  if (iBracketDepth =? 0)%Z then Some ((iBracketDepth, true), true) else Some ((iBracketDepth, ret), false).
Lemma rb_loop : forall m pre post d, forb_ (length m) (length pre) (rb_step (pre ++ m ++ post)) (d, false) = Some (dscan d m).
Proof.
  induction m as [|c m IH]; intros pre post d; [auto|]. cbn [length forb_ dscan]. unfold rb_step at 1. rewrite (vget_nth _ "000") by (rewrite !app_length; cbn; lia).
  rewrite app_nth2, Nat.sub_diag by lia. cbn [app nth bind]. change (let d0 := if Ascii.eqb c "(" then (d + 1)%Z else d in if Ascii.eqb c ")" then (d0 - 1)%Z else d0) with (dstep d c).
  fold (dstep d c). destruct (Z.eqb_spec (dstep d c) 0) as [E|E].
  - cbn [bind]. fold (dstep d c). rewrite E. auto.
  - cbn [bind]. fold (dstep d c). specialize (IH (pre ++ [c]) post (dstep d c)). rewrite <- app_assoc, app_length in IH. cbn [app length] in IH. rewrite Nat.add_1_r in IH. exact IH.
Qed.
Lemma rb_copy : forall m, forn 1 (S (length m)) (fun ipos exp => c <- vget ("(" :: m ++ [")"]) ipos ;; vset exp (ipos - 1) c) ("(" :: m ++ [")"]) =
  Some (m ++ skipn (length m) ("(" :: m ++ [")"])).
Proof.
  intros m. set (st := "(" :: m ++ [")"]). assert (Ls : length st = length m + 2) by (unfold st; cbn [length]; rewrite app_length; cbn; lia).
  match goal with |- ?e = _ => assert (X : wp e (fun v => length v = length st /\ forall j, j < length st -> nth j v "000" = if j <? length m then nth (S j) st "000" else nth j st "000")) end.
  { apply (wp_forn _ (fun i v => length v = length st /\ forall j, j < length st -> nth j v "000" = if j <? i - 1 then nth (S j) st "000" else nth j st "000")).
    - lia.
    - split; auto.
    - intros i v Hi (L & N). apply wp_bind. apply (wp_vget _ "000"); [lia|]. apply wp_vset; [lia|]. rewrite upd_length. split; auto.
      intros j Hj. rewrite nth_upd by lia. destruct (Nat.eq_dec (i - 1) j) as [<-|NE].
      + rewrite (proj2 (Nat.ltb_lt _ _)) by lia. f_equal. lia.
      + rewrite N by auto. destruct (Nat.ltb_spec j (i - 1)), (Nat.ltb_spec j (S i - 1)); auto; lia.
    - intros v (L & N). split; auto. intros j Hj. rewrite N by auto. replace (S (length m) - 1) with (length m) by lia. auto. }
  destruct (wp_ex _ _ _ X) as (v & E & L & N). rewrite E. f_equal. apply (list_ext _ "000"); [rewrite app_length, skipn_length; lia|].
  intros j Hj. rewrite N by lia. destruct (Nat.ltb_spec j (length m)).
  - rewrite app_nth1 by auto. unfold st. cbn [nth]. rewrite app_nth1 by auto. auto.
  - rewrite app_nth2 by auto. rewrite <- (firstn_skipn (length m) st) at 1. rewrite app_nth2; rewrite firstn_length, Nat.min_l by lia; auto.
Qed.
Lemma rb_unfold : forall fuel m, RemoveExpressionBracket (S fuel) ("(" :: m ++ [")"]) =
  if snd (dscan 1 m) then Some ("(" :: m ++ [")"]) else RemoveExpressionBracket fuel m.
Proof.
  intros fuel m. cbn [RemoveExpressionBracket]. cbn [nth Ascii.eqb Bool.eqb negb]. set (st := "(" :: m ++ [")"]).
  assert (Ls : length st = length m + 2) by (unfold st; cbn [length]; rewrite app_length; cbn; lia).
  rewrite (vget_nth _ "000") by lia. replace (nth (length st - 1) st "000") with ")".
  2:{ unfold st. change ("(" :: m ++ [")"]) with (("(" :: m) ++ [")"]). rewrite app_length. cbn [length]. rewrite app_nth2 by (cbn; lia). cbn [length]. replace (S (length m) + 1 - 1 - S (length m)) with 0 by lia. auto. }
  cbn [bind Ascii.eqb Bool.eqb negb].
  match goal with |- context [forb 1 (length st - 1) ?f ?s] => replace (forb 1 (length st - 1) f s) with (Some (dscan 1 m)) end.
  2:{ unfold forb. replace (length st - 1 - 1) with (length m) by lia. symmetry. exact (rb_loop m ["("] [")"] 1%Z). }
  cbn [bind]. destruct (dscan 1 m) as (d & h). cbn [snd]. destruct h; auto.
  replace (length st - 1) with (S (length m)) by lia. unfold st at 1 2. rewrite rb_copy. cbn [bind]. fold st.
  rewrite app_length, skipn_length, Ls. replace (length m + (length m + 2 - length m)) with (length m + 2) by lia.
  rewrite (proj2 (Nat.leb_le _ _)) by lia. cbn [assertb bind]. replace (length m + 2 - 2) with (length m) by lia. rewrite firstn_app, Nat.sub_diag, firstn_all. cbn [firstn]. rewrite app_nil_r. auto.
Qed.
Lemma rb_head : forall fuel t, (forall u, t <> "(" :: u) -> RemoveExpressionBracket (S fuel) t = Some t.
Proof.
  intros fuel [|c t] H; [reflexivity|]. cbn [RemoveExpressionBracket nth]. destruct (Ascii.eqb_spec c "("); [subst; exfalso; eapply H; eauto|]. auto.
Qed.
Lemma rb_tail : forall fuel t c, c <> ")" -> RemoveExpressionBracket (S fuel) (t ++ [c]) = Some (t ++ [c]).
Proof.
  intros fuel t c H. cbn [RemoveExpressionBracket]. destruct (negb _); auto. rewrite (vget_nth _ "000") by (rewrite app_length; cbn; lia).
  rewrite app_length. cbn [length]. replace (length t + 1 - 1) with (length t) by lia. rewrite app_nth2, Nat.sub_diag by lia. cbn [nth bind].
  destruct (Ascii.eqb_spec c ")"); [contradiction|]. auto.
Qed.

Section S.
Variable sg : bool.
Lemma bare_unchanged : forall e t fuel, bare sg e t -> RemoveExpressionBracket (S fuel) t = Some t.
Proof.
  intros e t fuel H. destruct H.
  - apply rb_head. intros u ->. destruct H as (_ & H). specialize (H "(" (or_introl eq_refl)). discriminate.
  - apply rb_head. intros u ->. destruct H as (H & _). specialize (H "(" (or_introl eq_refl)). apply H. cbn. auto.
  - reflexivity.
  - apply rb_head. intros u E. destruct f; discriminate.
  - assert (Ne := spells_nonempty sg _ _ _ H). destruct ta as [|c ta]; [congruence|]. destruct (ascii_dec c "(") as [->|N]; [|apply rb_head; intros u E; injection E as -> _; congruence].
    assert (Nb := spells_nonempty sg _ _ _ H0). destruct tb as [|c tb _] using rev_ind; [congruence|].
    destruct (ascii_dec c ")") as [->|N].
    + cbn [app]. change (op_char o :: tb ++ [")"]) with ((op_char o :: tb) ++ [")"]). rewrite app_assoc. rewrite rb_unfold.
      assert (DS := dinert_sum _ (spells_dinert _ _ _ _ H)). cbn [dsum] in DS. change (dstep 0 "(") with 1%Z in DS.
      rewrite dscan_app. destruct (dscan 1 ta) as (d & h) eqn:E. destruct h; auto. exfalso.
      destruct (dscan_sum ta 1%Z) as (A & B); [rewrite E; auto|]. rewrite E in A, B. cbn [fst] in *.
      assert (ta <> []) by (intros ->; cbn in DS; lia). specialize (B H3). lia.
    + change (op_char o :: tb ++ [c]) with ((op_char o :: tb) ++ [c]). rewrite app_assoc. apply rb_tail. auto.
  - apply rb_head. discriminate.
  - apply rb_head. discriminate.
Qed.
Lemma strip_ok : forall l e t, spells sg l e t -> forall fuel, length t < fuel -> exists t', RemoveExpressionBracket fuel t = Some t' /\ bare sg e t' /\ length t' <= length t.
Proof.
  assert (B : forall e t, bare sg e t -> forall fuel, length t < fuel -> exists t', RemoveExpressionBracket fuel t = Some t' /\ bare sg e t' /\ length t' <= length t).
  { intros e t H fuel L. destruct fuel; [lia|]. exists t. split; [eapply bare_unchanged; eauto|]. auto. }
  induction 1; try (apply B; econstructor; eauto; fail).
  intros fuel L. destruct fuel; [lia|]. cbn [length] in L. rewrite app_length in L. cbn in L. destruct (IHspells fuel) as (t' & E & Bt & Lt); [lia|].
  exists t'. rewrite rb_unfold. rewrite (spells_dinert _ _ _ _ H) by lia. cbn [snd]. split; auto. split; auto. cbn [length]. rewrite app_length. lia.
Qed.
Lemma bare_nonempty : forall e t, bare sg e t -> t <> [].
Proof.
  destruct 1; try discriminate.
  - apply H.
  - destruct H as (_ & (c & H & _) & _). intros ->. destruct H.
  - destruct f; discriminate.
  - destruct ta; discriminate.
Qed.

(** Reverse Polish form; the right operand comes first. *)
Fixpoint rpn (e : expr) : list compo :=
  match e with
  | Num s => [Compo s 0 None]
  | Var x => [Compo x 1 None]
  | Pi => [Compo ["P"; "I"] 1 (Some 0)]
  | Bin o a b => rpn b ++ rpn a ++ [Compo [op_char o] 3 (Some (op_ind o))]
  | Fn f a => rpn a ++ [Compo (fn_name f) 2 (Some (fn_ind f))]
  | Plus a => rpn a ++ [Compo ["+"] 2 (Some 0)]
  | Minus a => rpn a ++ [Compo ["-"] 2 (Some 1)]
  end.

Lemma vget_last : forall (pre : list compo) c, vget (pre ++ [c]) (length pre) = Some c.
Proof. intros. rewrite (vget_nth _ compo0) by (rewrite app_length; cbn; lia). rewrite app_nth2, Nat.sub_diag by lia. auto. Qed.
Lemma vset_last : forall (pre : list compo) c d, vset (pre ++ [c]) (length pre) d = Some (pre ++ [d]).
Proof. intros. rewrite vset_upd by (rewrite app_length; cbn; lia). rewrite upd_app_r, Nat.sub_diag by lia. auto. Qed.

Lemma MakeRPN_ok : forall dbg fuel e t pre ty op, (sg = true -> dbg = false) -> bare sg e t -> length t < fuel ->
  MakeRPN dbg fuel (length pre) (pre ++ [Compo t ty op]) = Some (true, pre ++ rpn e).
Proof.
  intros dbg fuel. induction fuel as [|fuel IH]; intros e t pre ty op SG B L; [lia|]. cbn [MakeRPN]. rewrite vget_last. cbn [bind sOpe iOpeType iOpe].
  assert (SIGN : forall c op0 l e1 t1, (c = "+" /\ op0 = 0) \/ (c = "-" /\ op0 = 1) -> sg = true -> spells sg l e1 t1 -> 6 <= l -> t = c :: t1 ->
    (r <- GetLowestPriorityOperator dbg t;;
  match r with
  | Some (itmp0, itmp1, itmp2, itmp3) =>
          if (itmp0 =? 0) && (itmp1 =? length t) then
            assertb (negb dbg || (itmp2 <=? 1)) ;;;
            vec <- vset (pre ++ [Compo t ty op]) (length pre) (Compo t itmp2 itmp3) ;;
            Some (true, vec)
          else
            assertb (negb dbg || (2 <=? itmp2)) ;;;
            assertb (negb dbg || (itmp2 <=? 3)) ;;;
            assertb (negb dbg || opr_ok itmp2 itmp3) ;;;
            left <- RemoveExpressionBracket (S (length t)) (skipn itmp1 t) ;;
            vec <- vset (pre ++ [Compo t ty op]) (length pre) (Compo left ty op) ;;
            if length left =? 0 then Some (false, vec) else
            '(ok, vec) <- MakeRPN dbg fuel (length pre) vec ;;
            if negb ok then Some (false, vec) else
            '(ok, vec) <- (if 0 <? itmp0 then
                let iright := length vec in
                right <- RemoveExpressionBracket (S (length t)) (firstn itmp0 t) ;;
                let vec := vec ++ [Compo right 0 None] in
                if length right =? 0 then Some (false, vec) else MakeRPN dbg fuel iright vec
              else Some (true, vec)) ;;
            if negb ok then Some (false, vec) else
            Some (true, vec ++ [Compo (firstn (itmp1 - itmp0) (skipn itmp0 t)) itmp2 itmp3])
  | None => Some (false, pre ++ [Compo t ty op])
  end) = Some (true, pre ++ rpn e1 ++ [Compo [c] 2 (Some op0)])).
  { intros c op0 l e1 t1 C Sg H L6 ->. rewrite (SG Sg). rewrite (glpo_sign sg c op0 l e1 t1 C H L6). cbn [bind].
    assert (Lt : 0 < length t1) by (apply spells_nonempty in H; destruct t1; [congruence|cbn; lia]). cbn [length] in L.
    rewrite (proj2 (Nat.eqb_neq 1 (length (c :: t1)))) by (cbn [length]; lia). cbn [Nat.eqb andb negb orb assertb bind skipn Nat.ltb Nat.leb].
    destruct (strip_ok l e1 t1 H (S (length (c :: t1)))) as (t' & E & Bt & L'); [cbn [length]; lia|]. rewrite E. cbn [bind]. rewrite vset_last. cbn [bind].
    assert (Nt := bare_nonempty _ _ Bt). destruct (Nat.eqb_spec (length t') 0) as [Z|_]; [destruct t'; [congruence|discriminate]|].
    rewrite <- (SG Sg). rewrite (IH e1 t' pre ty op SG Bt) by lia. cbn [bind negb Nat.sub firstn]. rewrite <- app_assoc. auto. }
  destruct B.
  - rewrite (glpo_num dbg s H). cbn [bind]. rewrite (Nat.eqb_refl (length s)). cbn [Nat.eqb andb Nat.leb]. rewrite orb_true_r. cbn [assertb bind]. rewrite vset_last. reflexivity.
  - rewrite (glpo_var dbg x H). cbn [bind]. rewrite (Nat.eqb_refl (length x)). cbn [Nat.eqb andb Nat.leb]. rewrite orb_true_r. cbn [assertb bind]. rewrite vset_last. reflexivity.
  - rewrite (glpo_pi dbg). cbn [bind length Nat.eqb andb Nat.leb]. rewrite orb_true_r. cbn [assertb bind]. rewrite vset_last. reflexivity.
  - rewrite (glpo_fn sg dbg f l e t H). cbn [bind].
    assert (Lt : 0 < length t) by (apply spells_nonempty in H; destruct t; [congruence|cbn; lia]).
    assert (LL : length (fn_name f ++ "(" :: t ++ [")"]) = length (fn_name f) + length t + 2) by (rewrite app_length; cbn [length]; rewrite app_length; cbn; lia).
    rewrite LL in *. rewrite (proj2 (Nat.eqb_neq (length (fn_name f)) _)) by lia. cbn [Nat.eqb andb].
    assert (OK : opr_ok 2 (Some (fn_ind f)) = true) by (destruct f; reflexivity). rewrite OK. cbn [Nat.leb]. rewrite !orb_true_r. cbn [assertb bind].
    rewrite skipn_app, skipn_all, Nat.sub_diag. cbn [skipn app].
    destruct (strip_ok _ _ _ (sp_par sg l e t H) (S (length (fn_name f) + length t + 2))) as (t' & E & Bt & L'); [cbn [length]; rewrite app_length; cbn; lia|].
    rewrite E. cbn [bind]. rewrite vset_last. cbn [bind]. assert (Nt := bare_nonempty _ _ Bt). destruct (Nat.eqb_spec (length t') 0) as [Z|_]; [destruct t'; [congruence|discriminate]|].
    cbn [length] in L'. rewrite app_length in L'. cbn [length] in L'. assert (0 < length (fn_name f)) by (destruct f; cbn; lia).
    rewrite (IH e t' pre ty op SG Bt) by lia. cbn [bind negb Nat.ltb Nat.leb]. rewrite Nat.sub_0_r. cbn [skipn]. rewrite firstn_app, Nat.sub_diag, firstn_all. cbn [firstn]. rewrite app_nil_r, <- app_assoc. auto.
  - rewrite (glpo_bin sg dbg o la a ta lb b tb H H0 H1 H2). cbn [bind].
    assert (La : 0 < length ta) by (apply spells_nonempty in H; destruct ta; [congruence|cbn; lia]).
    assert (Lb : 0 < length tb) by (apply spells_nonempty in H0; destruct tb; [congruence|cbn; lia]).
    assert (LL : length (ta ++ op_char o :: tb) = length ta + length tb + 1) by (rewrite app_length; cbn [length]; lia). rewrite LL in *.
    rewrite (proj2 (Nat.eqb_neq (length ta) 0)) by lia. cbn [andb].
    assert (OK : opr_ok 3 (Some (op_ind o)) = true) by (destruct o; reflexivity). rewrite OK. cbn [Nat.leb]. rewrite !orb_true_r. cbn [assertb bind].
    rewrite skipn_app, skipn_all2 by lia. replace (length ta + 1 - length ta) with 1 by lia. cbn [skipn app].
    destruct (strip_ok _ _ _ H0 (S (length ta + length tb + 1))) as (tb' & E & Bt & L'); [lia|]. rewrite E. cbn [bind]. rewrite vset_last. cbn [bind].
    assert (Nt := bare_nonempty _ _ Bt). destruct (Nat.eqb_spec (length tb') 0) as [Z|_]; [destruct tb'; [congruence|discriminate]|].
    rewrite (IH b tb' pre ty op SG Bt) by lia. cbn [bind negb]. rewrite (proj2 (Nat.ltb_lt _ _)) by lia.
    rewrite firstn_app, Nat.sub_diag, firstn_all. cbn [firstn]. rewrite app_nil_r.
    destruct (strip_ok _ _ _ H (S (length ta + length tb + 1))) as (ta' & E2 & Bt2 & L2'); [lia|]. rewrite E2. cbn [bind].
    assert (Nt2 := bare_nonempty _ _ Bt2). destruct (Nat.eqb_spec (length ta') 0) as [Z|_]; [destruct ta'; [congruence|discriminate]|].
    rewrite (IH a ta' (pre ++ rpn b) 0 None SG Bt2) by lia. cbn [bind negb]. rewrite skipn_app, skipn_all, Nat.sub_diag. cbn [skipn app firstn].
    cbn [rpn]. rewrite <- !app_assoc. auto.
  - exact (SIGN "+" 0 l e t (or_introl (conj eq_refl eq_refl)) H H0 H1 eq_refl).
  - exact (SIGN "-" 1 l e t (or_intror (conj eq_refl eq_refl)) H H0 H1 eq_refl).
Qed.
End S.
