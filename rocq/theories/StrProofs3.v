(** Comma separated numbers, attributes and dictionaries. *)
From Coq Require Import List Arith ZArith Bool Ascii Lia.
Import ListNotations.
From Verif Require Import Imp StrModel StrSpec StrProofs1 StrProofs2.
Open Scope char_scope. Open Scope nat_scope.

(** numbers *)
Fixpoint mapo {A B} (f : A -> option B) (l : list A) : option (list B) := match l with [] => Some [] | x :: l => y <- f x ;; r <- mapo f l ;; Some (y :: r) end.
Definition cbody {V} (stod : text -> option V) (strIn : text) := fun i (s : list V * nat) =>
    let '(aVal, ipos0) := s in
    c <- vget strIn i ;;
    if Ascii.eqb c "," then sval <- substr strIn ipos0 i ;; val <- stod sval ;; Some (aVal ++ [val], i + 1) else Some (aVal, ipos0).
Lemma cbody_quiet : forall {V} (stod : text -> option V) strIn pre t post st, strIn = pre ++ t ++ post -> ~ In "," t -> forn_ (length t) (length pre) (cbody stod strIn) st = Some st.
Proof.
  intros V stod strIn pre t post (a, p) E N. apply forn_quiet. intros j Hj. unfold cbody. unfold vget. rewrite E, nth_error_app2, nth_error_app1 by lia.
  destruct (nth_error t (j - length pre)) as [c|] eqn:G; [|apply nth_error_None in G; lia]. cbn [bind]. apply nth_error_In in G. destruct (Ascii.eqb_spec c ","); [congruence|reflexivity].
Qed.
Lemma cloop : forall {V} (stod : text -> option V) strIn ts t pre a vs, strIn = pre ++ join "," (ts ++ [t]) -> Forall (fun t => ~ In "," t) (ts ++ [t]) -> mapo stod ts = Some vs ->
  forn_ (length (join "," (ts ++ [t]))) (length pre) (cbody stod strIn) (a, length pre) = Some (a ++ vs, length strIn - length t) /\ exists p, strIn = p ++ t.
Proof.
  intros V stod strIn ts t. induction ts as [|x ts IH]; intros pre a vs E F M.
  - cbn [app join] in *. cbn in M. injection M as <-. rewrite (cbody_quiet stod strIn pre t []); [|rewrite E, app_nil_r; auto|inversion F; auto]. rewrite app_nil_r. split; [|exists pre; auto]. rewrite E, app_length. repeat f_equal; lia.
  - cbn [app] in *. rewrite join_cons in * by (destruct ts; discriminate). inversion F as [|? ? F1 F2]; subst x0 l. cbn [mapo] in M. destruct (stod x) as [v|] eqn:SX; cbn [bind] in M; [|discriminate]. destruct (mapo stod ts) as [vs'|]; cbn [bind] in M; [|discriminate]. injection M as <-.
    rewrite app_length. cbn [length]. rewrite forn_split, (cbody_quiet stod strIn pre x ("," :: join "," (ts ++ [t]))); auto. cbn [bind forn_].
    unfold cbody at 1. assert (G : vget strIn (length pre + length x) = Some ",") by (rewrite E, app_assoc, <- app_length; apply vget_mid). rewrite G. cbn [bind]. rewrite Ascii.eqb_refl.
    assert (SS : substr strIn (length pre) (length pre + length x) = Some x) by (rewrite E; apply substr_mid). rewrite SS. cbn [bind]. rewrite SX. cbn [bind].
    destruct (IH (pre ++ x ++ [","]) (a ++ [v]) vs') as (R & P); auto. { rewrite E, <- !app_assoc. auto. }
    split; auto. rewrite <- app_assoc in R. cbn [app] in R. etransitivity; [|exact R]. rewrite !app_length. cbn [length].
    replace (length pre + length x + 1) with (length pre + (length x + 1)) by lia. replace (S (length pre + length x)) with (length pre + (length x + 1)) by lia. reflexivity.
Qed.
Lemma CSV_ok : forall {V} (stod : text -> option V) ts t a vs, Forall (fun t => ~ In "," t) (ts ++ [t]) -> mapo stod (ts ++ if nonempty t then [t] else []) = Some vs ->
  ReadVector_CSV stod a (join "," (ts ++ [t])) = Some (a ++ vs).
Proof.
  intros V stod ts t a vs F M. unfold ReadVector_CSV. match goal with |- context [forn _ _ ?f _] => change f with (cbody stod (join "," (ts ++ [t]))) end. unfold forn. rewrite Nat.sub_0_r.
  assert (A : forall l l' vs, mapo stod (l ++ l') = Some vs -> exists v1 v2, mapo stod l = Some v1 /\ mapo stod l' = Some v2 /\ vs = v1 ++ v2).
  { induction l as [|x l IH]; intros l' ws H; cbn [app mapo] in *; [exists [], ws; auto|]. destruct (stod x); cbn [bind] in *; [|discriminate]. destruct (mapo stod (l ++ l')) eqn:E; cbn [bind] in *; [|discriminate]. injection H as <-.
    destruct (IH l' l0 E) as (v1 & v2 & -> & E2 & ->). cbn [bind]. exists (v :: v1), v2. auto. }
  destruct (A _ _ _ M) as (v1 & v2 & M1 & M2 & ->). destruct (cloop stod (join "," (ts ++ [t])) ts t [] a v1 eq_refl F M1) as (R & p & P). cbn [length] in R. match type of R with ?x = _ => match goal with |- context [forn_ ?a ?b ?c ?d] => change (forn_ a b c d) with x end end. rewrite R. cbn [bind].
  destruct t as [|c t].
  - cbn [length]. rewrite Nat.sub_0_r, Nat.ltb_irrefl. cbn in M2. injection M2 as <-. rewrite app_nil_r. auto.
  - rewrite P in *. rewrite app_length. rewrite (proj2 (Nat.ltb_lt _ _)) by (cbn [length]; lia). replace (length p + length (c :: t) - length (c :: t)) with (length p) by lia.
    assert (X := substr_mid p (c :: t) []). rewrite app_nil_r in X. rewrite X. cbn [bind]. cbn [nonempty length Nat.eqb negb mapo] in M2. destruct (stod (c :: t)); cbn [bind] in *; [|discriminate]. injection M2 as <-. rewrite app_assoc. auto.
Qed.

(** maps *)
Lemma mfind_minsert : forall m k v x, mfind (minsert m k v) x = match mfind m x with Some w => Some w | None => if list_eq_dec ascii_dec k x then Some v else None end.
Proof.
  intros. unfold minsert. destruct (mfind m k) as [w|] eqn:E.
  - destruct (mfind m x) eqn:X; auto. destruct (list_eq_dec ascii_dec k x); auto. congruence.
  - clear E. induction m as [|(a, b) m IH]; cbn [app mfind]; auto. destruct (list_eq_dec ascii_dec a x); auto.
Qed.
Fixpoint inserts (m : smap) (L : list (text * text)) : smap := match L with [] => m | (k, v) :: L => inserts (minsert m k v) L end.
Lemma inserts_find : forall L m x, mfind (inserts m L) x = match mfind m x with Some w => Some w | None => first_value L x end.
Proof.
  induction L as [|(k, v) L IH]; intros m x; cbn [inserts first_value]; [destruct (mfind m x); auto|]. rewrite IH, mfind_minsert. destruct (mfind m x); auto. destruct (list_eq_dec ascii_dec k x); auto.
Qed.

(** attributes *)
Section Quiet.
Variable Q : Type.
Variable step : Q -> ascii -> Q.
Variable top : Q -> ascii -> bool.
Fixpoint quiet (st : Q) (l : text) : Prop := match l with [] => True | c :: l => top (step st c) c = false /\ quiet (step st c) l end.
Definition runq (st : Q) (l : text) : Q := fold_left step l st.
Lemma cutf_quiet : forall t l st cur, quiet st t -> cutf step top st cur (t ++ l) = cutf step top (runq st t) (cur ++ t) l.
Proof.
  induction t as [|c t IH]; intros l st cur H; cbn [app cutf runq fold_left quiet] in *; [rewrite app_nil_r; auto|]. destruct H as (H1 & H2). rewrite H1, IH by auto. rewrite <- app_assoc. auto.
Qed.
Lemma quiet_app : forall a b st, quiet st (a ++ b) <-> quiet st a /\ quiet (runq st a) b.
Proof. induction a as [|c a IH]; intros b st; cbn [app quiet runq fold_left]; [tauto|]. rewrite IH. unfold runq. tauto. Qed.
End Quiet.
Arguments quiet {Q}. Arguments runq {Q}.
Lemma quiet_out : forall d q t, ~ In d t -> ~ In q t -> quiet (qstep q) (qtop d) false t /\ runq (qstep q) false t = false.
Proof.
  induction t as [|c t IH]; intros N M; [cbn; auto|]. cbn [quiet runq fold_left]. assert (S1 : qstep q false c = false) by (unfold qstep; destruct (Ascii.eqb_spec c q) as [->|]; auto; exfalso; apply M; left; auto). rewrite S1.
  destruct IH as (A & B); [intros ?; apply N; right; auto|intros ?; apply M; right; auto|]. repeat split; auto. unfold qtop. destruct (Ascii.eqb_spec c d) as [->|]; auto. exfalso; apply N; left; auto.
Qed.
Lemma quiet_in : forall d q t, ~ In q t -> quiet (qstep q) (qtop d) true t /\ runq (qstep q) true t = true.
Proof.
  induction t as [|c t IH]; intros M; [cbn; auto|]. cbn [quiet runq fold_left]. assert (S1 : qstep q true c = true) by (unfold qstep; destruct (Ascii.eqb_spec c q) as [->|]; auto; exfalso; apply M; left; auto). rewrite S1.
  destruct IH as (A & B); [intros ?; apply M; right; auto|]. repeat split; auto. unfold qtop. rewrite andb_false_r. auto.
Qed.
Lemma attr_quiet : forall kv t, attr_text kv t -> quiet (qstep dquote) (qtop " ") false t /\ runq (qstep dquote) false t = false.
Proof.
  intros kv t H. destruct H as [k v K V E S D|k v K E S D].
  - apply quiet_out; intros H; apply in_app_or in H; destruct H as [H|[H|H]]; try discriminate; first [solve [apply S; apply in_or_app; auto]|solve [apply D; apply in_or_app; auto]].
  - assert (D1 : ~ In dquote k) by (intros H; apply D; apply in_or_app; auto). assert (D2 : ~ In dquote v) by (intros H; apply D; apply in_or_app; auto).
    destruct (quiet_out " " dquote k S D1) as (A1 & A2). destruct (quiet_in " " dquote v D2) as (B1 & B2). split.
    + apply quiet_app. split; auto. rewrite A2. cbn [quiet]. split; [reflexivity|]. split; [reflexivity|]. change (qstep dquote (qstep dquote false "=") dquote) with true. apply quiet_app. split; auto. rewrite B2. cbn. auto.
    + unfold runq in *. rewrite fold_left_app. rewrite A2. cbn [fold_left]. change (qstep dquote (qstep dquote false "=") dquote) with true. rewrite fold_left_app, B2. reflexivity.
Qed.
Lemma cutf_join_quiet : forall ts cur, ts <> [] -> (forall t, In t ts -> quiet (qstep dquote) (qtop " ") false t /\ runq (qstep dquote) false t = false) ->
  cutf (qstep dquote) (qtop " ") false cur (join " " ts) = match ts with [] => [] | t :: ts => (cur ++ t) :: ts end.
Proof.
  induction ts as [|t ts IH]; intros cur NE H; [congruence|]. destruct (H t (or_introl eq_refl)) as (A & B). destruct ts as [|t2 ts].
  - cbn [join]. rewrite <- (app_nil_r t) at 1. rewrite cutf_quiet by auto. reflexivity.
  - rewrite join_cons by discriminate. rewrite cutf_quiet, B by auto. cbn [cutf]. change (qtop " " (qstep dquote false " ") " ") with true. cbv iota. change (qstep dquote false " ") with false. f_equal.
    rewrite IH by (try discriminate; intros; apply H; right; auto). reflexivity.
Qed.
Lemma unit_quiet : forall (D : ascii -> bool) t, (forall c, In c t -> D c = false) -> quiet ustep (utop D) tt t.
Proof. induction t as [|c t IH]; intros H; cbn; auto. split; [unfold utop; apply H; left; auto|]. apply IH. intros; apply H; right; auto. Qed.
Lemma split_eq_two : forall k w, ~ In "=" k -> ~ In "=" w -> k <> [] -> w <> [] -> Split (k ++ "=" :: w) "=" = Some [k; w].
Proof.
  intros k w K W NK NW. rewrite Split_eq. f_equal.
  assert (QQ : forall t, ~ In "=" t -> quiet ustep (utop (fun c => Ascii.eqb c "=")) tt t) by (intros t H; apply unit_quiet; intros c Hc; destruct (Ascii.eqb_spec c "=") as [->|]; tauto).
  rewrite cutf_quiet by auto. cbn [cutf]. unfold utop at 1. rewrite Ascii.eqb_refl. rewrite <- (app_nil_r w) at 1. assert (X : forall st : unit, ustep st "=" = tt) by auto. rewrite X. rewrite cutf_quiet by auto. cbn [cutf filter app].
  destruct k; [congruence|]. destruct w; [congruence|]. reflexivity.
Qed.
Definition abody := fun (is : text) (m : smap) =>
    aS1 <- Split is "=" ;;
    if negb (length aS1 =? 2) then Some m else
    k <- vget aS1 0 ;; v <- vget aS1 1 ;;
    s1 <- Remove_Quote v dquote ;;
    Some (minsert m k s1).
Lemma attr_one : forall k v t m, attr_text (k, v) t -> abody t m = Some (minsert m k v).
Proof.
  intros k v t m H. unfold abody. inversion H as [k' v' K V E S D|k' v' K E S D]; subst.
  - rewrite split_eq_two by (auto; intros X; apply E; apply in_or_app; auto). cbn [bind length Nat.eqb negb vget nth_error]. rewrite Remove_Quote_few; [reflexivity|]. assert (Z : count_occ ascii_dec v dquote = 0) by (apply count_occ_not_In; intros X; apply D; apply in_or_app; auto). rewrite Z. lia.
  - rewrite split_eq_two; [|intros X; apply E; apply in_or_app; auto| |auto|discriminate].
    + cbn [bind length Nat.eqb negb vget nth_error]. assert (X := Remove_Quote_two [] v [] dquote (fun x => x) (fun x => x)). cbn [app] in X. rewrite X. reflexivity.
    + intros [X|X]; [discriminate|]. apply in_app_or in X. destruct X as [X|[X|[]]]; [|discriminate]. apply E; apply in_or_app; auto.
Qed.
Lemma attrs_fold : forall L ts m, Forall2 attr_text L ts -> foldM abody ts m = Some (inserts m L).
Proof. intros L ts m H. revert m. induction H as [|(k, v) t L ts A F IH]; intros m; cbn [foldM inserts]; auto. rewrite (attr_one k v) by auto. cbn [bind]. auto. Qed.
Lemma ParseAttributes_ok : forall L ts m, Forall2 attr_text L (filter nonempty ts) -> last ts [] <> [] ->
  exists r, ParseAttributes m (join " " ts) = Some r /\ forall k, mfind r k = match mfind m k with Some w => Some w | None => first_value L k end.
Proof.
  intros L ts m F LN. exists (inserts m L). split; [|apply inserts_find]. unfold ParseAttributes. rewrite Split_Quote_eq by discriminate.
  assert (NE : ts <> []) by (intros ->; cbn in LN; congruence).
  assert (QT : forall t, In t ts -> quiet (qstep dquote) (qtop " ") false t /\ runq (qstep dquote) false t = false).
  { intros t Ht. destruct t as [|c t]; [cbn; auto|]. assert (I : In (c :: t) (filter nonempty ts)) by (apply filter_In; split; [exact Ht|reflexivity]). clear - F I. induction F as [|kv t' L ts' A F IH]; [destruct I|]. destruct I as [->|I]; auto. eapply attr_quiet; eauto. }
  rewrite cutf_join_quiet by auto.
  assert (LL : last ts [" "] <> []). { intros X. apply LN. clear - NE X. induction ts as [|t ts IH]; [congruence|]. destruct ts; [exact X|]. apply IH; [discriminate|exact X]. }
  assert (JN : nonempty (join " " ts) = true). { destruct (join " " ts) eqn:J; [exfalso|reflexivity]. destruct ts as [|t [|t2 ts]]; [congruence| |]; cbn [join] in J; [subst; cbn in LN; congruence|]. destruct t; discriminate. }
  rewrite JN. match goal with |- context [fixlast _ ?x] => assert (TS : x = ts) by (destruct ts; reflexivity); rewrite TS end. rewrite fixlast_same by exact LL. cbn [bind].
  change (foldM abody (filter nonempty ts) m = Some (inserts m L)). apply attrs_fold; auto.
Qed.
