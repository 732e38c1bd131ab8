(** Theorems about the string functions (C39, C56, C57, C58). *)
From Coq Require Import List Arith ZArith Bool Ascii String Lia.
Import ListNotations.
From Verif Require Import Imp StrModel StrSpec StrProofs1 StrProofs2 StrProofs3 StrProofs4.
Open Scope char_scope. Open Scope nat_scope. Open Scope list_scope.

Definition T (s : string) : text := list_ascii_of_string s.
Definition TS (l : list string) : list text := map T l.

Lemma tokens_ext : forall (D D' : ascii -> Prop) s ts, (forall c, D c <-> D' c) -> tokens D s ts -> tokens D' s ts.
Proof.
  intros D D' s ts E H. induction H as [s H|g t rest ts H1 H2 H3 H4 H5 IH]; [apply tk_nil; intros; apply E; auto|].
  apply tk_cons; auto; [intros; apply E; auto|intros c Hc X; apply (H3 c Hc), E; auto|]. destruct H4 as [|(c & r & X & Y)]; auto. right. exists c, r. split; auto. apply E; auto.
Qed.
(** What [tokens] implies: nothing lost, nothing invented. *)
Lemma tokens_concat : forall (D : ascii -> Prop) (Db : ascii -> bool) s ts, (forall c, D c <-> Db c = true) -> tokens D s ts ->
  List.concat ts = filter (fun c => negb (Db c)) s /\ (forall t, In t ts -> t <> [] /\ forall c, In c t -> ~ D c).
Proof.
  intros D Db s ts E H.
  assert (A1 : forall l, (forall c, In c l -> D c) -> filter (fun c => negb (Db c)) l = []).
  { induction l as [|c l IH]; intros X; auto. cbn [filter]. rewrite (proj1 (E c)) by (apply X; left; auto). apply IH. intros; apply X; right; auto. }
  assert (A2 : forall l, (forall c, In c l -> ~ D c) -> filter (fun c => negb (Db c)) l = l).
  { induction l as [|c l IH]; intros X; auto. cbn [filter]. destruct (Db c) eqn:B; [exfalso; apply (X c (or_introl eq_refl)), E; auto|]. cbn [negb]. f_equal. apply IH. intros; apply X; right; auto. }
  induction H as [s H|g t rest ts H1 H2 H3 H4 H5 IH].
  - split; [rewrite A1; auto|intros ? []].
  - destruct IH as (I1 & I2). split.
    + cbn [List.concat]. rewrite !filter_app, A1, A2, I1 by auto. auto.
    + intros t' [<-|Ht]; auto.
Qed.

(** C39: Split gives the maximal stretches without a delimiter, in order. *)
Theorem C39_Split : forall s d, exists ts, Split s d = Some ts /\ tokens (fun c => c = d) s ts /\ List.concat ts = filter (fun c => negb (Ascii.eqb c d)) s.
Proof.
  intros s d. rewrite Split_eq. eexists. split; [reflexivity|].
  assert (X := cutf_tokens (fun c => Ascii.eqb c d) s [] ltac:(intros ? [])). cbn [app] in X.
  split; [revert X; apply tokens_ext; intros; apply Ascii.eqb_eq|]. eapply (tokens_concat _ (fun c => Ascii.eqb c d)) in X; [apply X|]. intros; tauto.
Qed.
Theorem C39_Split_set : forall s del, exists ts, Split_set s del = Some ts /\ tokens (fun c => In c del) s ts /\ List.concat ts = filter (fun c => negb (existsb (Ascii.eqb c) del)) s.
Proof.
  intros s del. rewrite Split_set_eq. eexists. split; [reflexivity|].
  assert (X := cutf_tokens (fun c => existsb (Ascii.eqb c) del) s [] ltac:(intros ? [])). cbn [app] in X.
  split; [revert X; apply tokens_ext; intros; apply existsb_in|]. eapply (tokens_concat _ (fun c => existsb (Ascii.eqb c) del)) in X; [apply X|]. intros; tauto.
Qed.
Lemma fields_par : forall cs ce d s, fields (par_cut cs ce d s) d s (cutf (pstep cs ce) (ptop d) 0%Z [] s).
Proof.
  intros. apply cutf_fields; [unfold ptop; intros st c; rewrite andb_true_iff, Ascii.eqb_eq; tauto|]. intros i Hi. rewrite ptopat by auto. unfold par_cut, plevel. split; intros (A & B); split; auto; lia.
Qed.
Lemma fields_quote : forall q d s, fields (quote_cut q d s) d s (cutf (qstep q) (qtop d) false [] s).
Proof.
  intros. apply cutf_fields; [unfold qtop; intros st c; rewrite andb_true_iff, Ascii.eqb_eq; tauto|]. intros i Hi. rewrite qtopat by auto. rewrite xorb_false_l. unfold quote_cut. tauto.
Qed.
(** Split_Parentheses cuts exactly at the delimiters outside of brackets.  If the text ends with such a delimiter the last two fields come out wrong. *)
Theorem C39_Split_Parentheses : forall s d cs ce, s <> [] -> exists F ts,
  fields (par_cut cs ce d s) d s F /\ Split_Parentheses s d [cs; ce] = Some ts /\
  ((~ par_cut cs ce d s (List.length s - 1) /\ ts = F) \/
   (par_cut cs ce d s (List.length s - 1) /\ exists F' x, F = F' ++ [x; []] /\ ts = F' ++ [x ++ [d]; x])).
Proof.
  intros s d cs ce NE. exists (cutf (pstep cs ce) (ptop d) 0%Z [] s). rewrite Split_Parentheses_eq. eexists. split; [apply fields_par|].
  assert (L : List.length s - 1 < List.length s) by (destruct s; [congruence|cbn; lia]).
  assert (C : par_cut cs ce d s (List.length s - 1) <-> topat (pstep cs ce) (ptop d) 0%Z s (List.length s - 1) = true). { rewrite ptopat by auto. unfold par_cut, plevel. split; intros (A & B); split; auto; lia. }
  assert (N : nonempty s = true) by (destruct s; [congruence|reflexivity]). rewrite N. split; [reflexivity|].
  destruct (fix_cutf _ (pstep cs ce) (ptop d) d s 0%Z NE) as [(A & B)|(A & F & x & B1 & B2)]; [left|right].
  - rewrite C, A. split; [discriminate|auto].
  - rewrite C. split; auto. exists F, x. auto.
Qed.
(** Split_Quote cuts exactly at the delimiters outside of quotes and drops empty fields. *)
Theorem C39_Split_Quote : forall s d q, s <> [] -> d <> q -> exists F ts,
  fields (quote_cut q d s) d s F /\ Split_Quote s d q = Some ts /\
  ((~ quote_cut q d s (List.length s - 1) /\ ts = filter nonempty F) \/
   (quote_cut q d s (List.length s - 1) /\ exists F' x, F = F' ++ [x; []] /\ ts = filter nonempty (F' ++ [x ++ [d]; x]))).
Proof.
  intros s d q NE DQ. exists (cutf (qstep q) (qtop d) false [] s). rewrite Split_Quote_eq by auto. eexists. split; [apply fields_quote|].
  assert (L : List.length s - 1 < List.length s) by (destruct s; [congruence|cbn; lia]).
  assert (C : quote_cut q d s (List.length s - 1) <-> topat (qstep q) (qtop d) false s (List.length s - 1) = true) by (rewrite qtopat by auto; rewrite xorb_false_l; unfold quote_cut; tauto).
  assert (N : nonempty s = true) by (destruct s; [congruence|reflexivity]). rewrite N. split; [reflexivity|].
  destruct (fix_cutf _ (qstep q) (qtop d) d s false NE) as [(A & B)|(A & F & x & B1 & B2)]; [left|right].
  - rewrite C, A, B. split; [discriminate|auto].
  - rewrite C, B2. split; auto. exists F, x. auto.
Qed.
Theorem C39_empty : forall d q cs ce, Split_Parentheses [] d [cs; ce] = Some [] /\ Split_Quote [] d q = Some [].
Proof. intros. split; reflexivity. Qed.
(** Not so: "the tokens contain no top-level delimiter, and put together they are the input without the delimiters". *)
Theorem C39_trailing_refuted : Split_Parentheses (T "a,b,") "," (T "()") = Some (TS ["a"; "b,"; "b"]%string) /\
  Split_Quote (T "a b ") " " dquote = Some (TS ["a"; "b "; "b"]%string).
Proof. split; vm_compute; reflexivity. Qed.
Print Assumptions C39_Split. Print Assumptions C39_Split_set. Print Assumptions C39_Split_Parentheses. Print Assumptions C39_Split_Quote. Print Assumptions C39_trailing_refuted.
Example C39_example : Split_Parentheses (T "f(a,b),,g") "," (T "()") = Some (TS ["f(a,b)"; ""; "g"]%string) /\
  Split_set (T ";a, b;") (T " ,;") = Some (TS ["a"; "b"]%string) /\ Split (T "//x/yz") "/" = Some (TS ["x"; "yz"]%string) /\
  Split_Quote (T "a  'b c' d") " " "'" = Some (TS ["a"; "'b c'"; "d"]%string) /\ ~ par_cut "(" ")" "," (T "f(a,b),,g") 8.
Proof. repeat split; try (vm_compute; reflexivity). intros (A & _). discriminate. Qed.

(** C56: character-wise functions, trimming, quotes and brackets. *)
Theorem C56_Remove_Replace : forall s del cf ct,
  Remove s del = Some (filter (fun c => negb (existsb (Ascii.eqb c) del)) s) /\ RemoveSpace s = Some (filter (fun c => negb (Ascii.eqb c " ")) s) /\
  Replace s cf ct = Some (map (fun c => if Ascii.eqb c cf then ct else c) s).
Proof. intros. split; [apply Remove_ok|]. split; [apply RemoveSpace_ok|apply Replace_ok]. Qed.
(** RemoveBeginning drops the leading delimiters, unless there is nothing else in the text. *)
Theorem C56_RemoveBeginning : forall s del, exists r, RemoveBeginning s del = Some r /\ trimmed (fun c => In c del) s r.
Proof. exact RemoveBeginning_ok. Qed.
Theorem C56_RemoveBeginning_refuted : RemoveBeginning (T "   ") (T " ") = Some (T "   ").
Proof. reflexivity. Qed.
(** What is between the first and the last quote; texts with fewer than two quotes stay as they are. *)
Theorem C56_Remove_Quote : forall q, (forall a b c, ~ In q a -> ~ In q c -> Remove_Quote (a ++ q :: b ++ q :: c) q = Some b) /\
  (forall s, count_occ ascii_dec s q < 2 -> Remove_Quote s q = Some s).
Proof. intros q. split; [intros; apply Remove_Quote_two; auto|intros; apply Remove_Quote_few; auto]. Qed.
(** What is between the first opening and the last closing bracket; empty if there is no such pair. *)
Theorem C56_Get_Parentheses : forall cs ce, (forall a b c, ~ In cs a -> ~ In ce c -> Get_Parentheses (a ++ cs :: b ++ ce :: c) [cs; ce] = Some b) /\
  (forall s, ~ In cs s -> Get_Parentheses s [cs; ce] = Some []) /\
  (forall a b, ~ In cs a -> cs <> ce -> ~ In ce b -> Get_Parentheses (a ++ cs :: b) [cs; ce] = Some []).
Proof. intros. split; [intros; apply Get_Parentheses_two; auto|]. split; [intros; apply Get_Parentheses_none; auto|intros; apply Get_Parentheses_noend; auto]. Qed.
(** With equal brackets, a single one makes an invalid range. *)
Theorem C56_Get_Parentheses_refuted : Get_Parentheses (T "a|b") (T "||") = None.
Proof. reflexivity. Qed.
Print Assumptions C56_Remove_Replace. Print Assumptions C56_RemoveBeginning. Print Assumptions C56_Remove_Quote. Print Assumptions C56_Get_Parentheses.
Example C56_example : RemoveBeginning (T "  a b") (T " ") = Some (T "a b") /\ Remove_Quote (T "x'a'b'y") "'" = Some (T "a'b") /\ Get_Parentheses (T "f(g(x),y)z") (T "()") = Some (T "g(x),y") /\
  Replace (T "a.b.c") "." "/" = Some (T "a/b/c").
Proof. repeat split; vm_compute; reflexivity. Qed.

(** C57: contents and tags in turn, each without leading blanks, are appended (and what was in the list before is trimmed as well). *)
Theorem C57_XML : forall aStr s junk, ~ In "000" s -> exists ps out, xml_pieces s ps /\ (forall ps', xml_pieces s ps' -> ps' = ps) /\
  XML_SeparateTagContent aStr (s ++ "000" :: junk) = Some out /\ Forall2 (trimmed (fun c => c = " ")) (aStr ++ ps) out.
Proof.
  intros aStr s junk N. destruct (XML_ok aStr s junk N) as (ps & out & P & E & F). exists ps, out. split; auto. split; [intros ps' P'; symmetry; eapply xml_det; eauto|]. split; auto.
  clear - F. induction F as [|a b la lb X F IH]; [constructor|]. constructor; auto. inversion X as [g c r G C|s' A]; subst.
  - apply tr_drop; [intros x Hx; destruct (G x Hx) as [<-|[]]; auto|]. intros ->. apply C. left; auto.
  - apply tr_all. intros x Hx. destruct (A x Hx) as [<-|[]]; auto.
Qed.
(** Text after the last tag is lost. *)
Theorem C57_trailing_refuted : XML_SeparateTagContent [] (T "<a>text" ++ ["000"]) = Some (TS [""; "a"]%string).
Proof. vm_compute. reflexivity. Qed.
Print Assumptions C57_XML. Print Assumptions C57_trailing_refuted.
Example C57_example : XML_SeparateTagContent [] (T "<a k='>'> x</a>" ++ ["000"]) = Some (TS [""; "a k='"; "'> x"; "/a"]%string) /\ ~ In "000" (T "<a k='>'> x</a>").
Proof. split; [vm_compute; reflexivity|]. cbn. intros H. repeat (destruct H as [H|H]; [discriminate|]). destruct H. Qed.

(** C58: numbers, attributes, dictionaries.  Values are appended in order; an empty last field gives no value. *)
Theorem C58_CSV : forall {V} (stod : text -> option V) (ts : list text) (last : text) vs ws a,
  Forall (fun t => ~ In "," t) (ts ++ [last]) -> Forall2 (fun t v => stod t = Some v) ts vs -> (if nonempty last then exists v, stod last = Some v /\ ws = [v] else ws = []) ->
  ReadVector_CSV stod a (join "," (ts ++ [last])) = Some (a ++ vs ++ ws).
Proof.
  intros V stod ts t vs ws a F M W. apply CSV_ok; auto.
  assert (X : forall ts vs, Forall2 (fun t v => stod t = Some v) ts vs -> forall l vs', mapo stod l = Some vs' -> mapo stod (ts ++ l) = Some (vs ++ vs')).
  { clear. intros ts vs H. induction H as [|t v ts vs A H IH]; intros l vs' E; auto. cbn [app mapo]. rewrite A. cbn [bind]. rewrite (IH l vs' E). auto. }
  apply X; auto. destruct (nonempty t); [|subst; auto]. destruct W as (v & E & ->). cbn [mapo]. rewrite E. reflexivity.
Qed.
(** name=value and name="value" separated by one or more blanks, none at the end; the first value given to a name counts; names already there keep theirs. *)
Theorem C58_ParseAttributes : forall L ts m, Forall2 attr_text L (filter nonempty ts) -> last ts [] <> [] ->
  exists r, ParseAttributes m (join " " ts) = Some r /\ forall k, mfind r k = match mfind m k with Some w => Some w | None => first_value L k end.
Proof. exact ParseAttributes_ok. Qed.
(** With a blank at the end the last value keeps it. *)
Theorem C58_ParseAttributes_refuted : ParseAttributes [] (T "a=1 ") = Some [(T "a", T "1 ")].
Proof. vm_compute. reflexivity. Qed.
(** Keys and values without quotes and blanks that do not begin with a comma or colon. *)
Definition json_safe (l : text) : Prop := ~ In dquote l /\ match l with [] => True | c :: _ => c <> "," /\ c <> ":" end.
Theorem C58_Json : forall dbg s L, L <> [] -> filter (fun c => negb (Ascii.eqb c " ")) s = json_text L -> (forall k v, In (k, v) L -> json_safe k /\ json_safe v) ->
  exists r, ReadDictionary_Json dbg s = Some r /\ forall k, mfind r k = first_value L k.
Proof. exact Json_ok. Qed.
(** A value that begins with a comma is taken apart; an empty dictionary is undefined. *)
Theorem C58_Json_refuted : ReadDictionary_Json false (json_text [(T "k", T ",v")]) <> Some [(T "k", T ",v")] /\ ReadDictionary_Json true (json_text [(T "k", T ",v")]) = None /\
  ReadDictionary_Json false (json_text []) = None.
Proof. split; [vm_compute; discriminate|]. split; vm_compute; reflexivity. Qed.
(** Blanks inside of quotes are lost. *)
Theorem C58_Json_blank_refuted : ReadDictionary_Json false (json_text [(T "k", T "a b")]) = Some [(T "k", T "ab")].
Proof. vm_compute. reflexivity. Qed.
Print Assumptions C58_CSV. Print Assumptions C58_ParseAttributes. Print Assumptions C58_ParseAttributes_refuted. Print Assumptions C58_Json. Print Assumptions C58_Json_refuted. Print Assumptions C58_Json_blank_refuted.
Example C58_example : Forall2 attr_text [(T "id", T "a"); (T "w", T "")] (filter nonempty [T "id=a"; []; (T "w=" ++ [dquote; dquote])]) /\ last [T "id=a"; []; (T "w=" ++ [dquote; dquote])] [] <> [].
Proof.
  split; [|cbn; discriminate]. constructor; [|constructor; [|constructor]].
  - apply (at_plain (T "id") (T "a")); try discriminate; cbn; intros H; repeat (destruct H as [H|H]; [discriminate|]); destruct H.
  - apply (at_quoted (T "w") (T "")); try discriminate; cbn; intros H; repeat (destruct H as [H|H]; [discriminate|]); destruct H.
Qed.
Example C58_json_example : filter (fun c => negb (Ascii.eqb c " ")) (("{" :: dquote :: T "k" ++ dquote :: T " : " ++ dquote :: T "v" ++ dquote :: T ", " ++ dquote :: T "a" ++ [dquote; ":"; dquote; dquote; "}"])) = json_text [(T "k", T "v"); (T "a", T "")].
Proof. vm_compute. reflexivity. Qed.
