(** Cutting a text. *)
From Coq Require Import List Arith ZArith Bool Ascii Lia.
Import ListNotations.
From Verif Require Import Imp StrModel StrSpec.
Open Scope char_scope. Open Scope nat_scope.

Lemma substr_mid : forall a b c, substr (a ++ b ++ c) (length a) (length a + length b) = Some b.
Proof.
  intros. unfold substr. rewrite !app_length. rewrite (proj2 (Nat.leb_le _ _)), (proj2 (Nat.leb_le _ _)) by lia. cbn [andb]. f_equal.
  rewrite skipn_app, skipn_all, Nat.sub_diag. cbn [skipn app]. rewrite firstn_app. replace (length a + length b - length a) with (length b) by lia. rewrite firstn_all, Nat.sub_diag. cbn. apply app_nil_r.
Qed.
Lemma vget_mid : forall {T} (a : list T) x b, vget (a ++ x :: b) (length a) = Some x.
Proof. intros. unfold vget. rewrite nth_error_app2, Nat.sub_diag by lia. auto. Qed.

Lemma is_in_gen : forall c l pre, forb_ (length l) (length pre) (fun i r => x <- vget (pre ++ l) i ;; if Ascii.eqb c x then Some (true, true) else Some (r, false)) false = Some (existsb (Ascii.eqb c) l).
Proof.
  intros c. induction l as [|x l IH]; intros pre; [reflexivity|]. cbn [length forb_ existsb]. rewrite vget_mid. cbn [bind]. destruct (Ascii.eqb c x); cbn [bind orb]; auto.
  specialize (IH (pre ++ [x])). rewrite <- app_assoc, app_length in IH. cbn [app length] in IH. rewrite Nat.add_1_r in IH. exact IH.
Qed.
Lemma is_in_ok : forall c del, is_in c del = Some (existsb (Ascii.eqb c) del).
Proof. intros. unfold is_in, forb. rewrite Nat.sub_0_r. apply (is_in_gen c del []). Qed.
Lemma existsb_in : forall c l, existsb (Ascii.eqb c) l = true <-> In c l.
Proof. intros. rewrite existsb_exists. split; [intros (x & H & E); apply Ascii.eqb_eq in E; subst; auto|]. intros H. exists c. split; auto. apply Ascii.eqb_refl. Qed.

Section Cut.
Variable Q : Type.
Variable step : Q -> ascii -> Q.
Variable top : Q -> ascii -> bool.       (* state after the character, the character *)
Fixpoint cutf (st : Q) (cur : text) (l : text) : list text :=
  match l with
  | [] => [cur]
  | c :: l => let st := step st c in if top st c then cur :: cutf st [] l else cutf st (cur ++ [c]) l
  end.
Fixpoint topat (st : Q) (l : text) (i : nat) : bool :=
  match l with [] => false | c :: l => match i with 0 => top (step st c) c | S i => topat (step st c) l i end end.
Lemma cutf_ne : forall l st cur, cutf st cur l <> [].
Proof. induction l; intros; cbn [cutf]; [discriminate|]. destruct (top _ _); [discriminate|auto]. Qed.
Variable d : ascii.
Hypothesis top_d : forall st c, top st c = true -> c = d.
Lemma join_cons : forall x F, F <> [] -> join d (x :: F) = x ++ d :: join d F.
Proof. intros x [|y F] H; [congruence|reflexivity]. Qed.
Lemma cutf_join : forall l st cur, join d (cutf st cur l) = cur ++ l.
Proof.
  induction l as [|c l IH]; intros; cbn [cutf].
  - cbn. rewrite app_nil_r. auto.
  - destruct (top _ _) eqn:T.
    + rewrite join_cons by apply cutf_ne. rewrite IH. apply top_d in T. subst. auto.
    + rewrite IH, <- app_assoc. auto.
Qed.
Lemma cutf_cuts : forall l st cur,
  (forall k, 0 < k < length (cutf st cur l) -> length cur <= length (join d (firstn k (cutf st cur l)))) /\
  (forall i, i < length l -> (topat st l i = true <-> exists k, 0 < k < length (cutf st cur l) /\ length cur + i = length (join d (firstn k (cutf st cur l))))).
Proof.
  induction l as [|c l IH]; intros st cur; cbn [cutf topat length].
  - split; intros; cbn in *; lia.
  - destruct (top (step st c) c) eqn:T.
    + destruct (IH (step st c) []) as (A & B). assert (NE := cutf_ne l (step st c) []). set (F := cutf (step st c) [] l) in *.
      assert (K : forall k, 0 < k -> k < length F -> length (join d (firstn (S k) (cur :: F))) = S (length cur + length (join d (firstn k F)))).
      { intros k K1 K2. cbn [firstn]. rewrite join_cons. 2:{ destruct F; cbn in K2; [lia|]. destruct k; [lia|]. discriminate. } rewrite app_length. cbn [length]. lia. }
      split.
      * intros [|[|k]] Hk; [lia|cbn; lia|]. cbn [length] in Hk. rewrite K by lia. lia.
      * intros [|i] Hi.
        -- split; auto. intros _. exists 1. cbn [length firstn]. destruct F; [congruence|]. cbn [length join]. lia.
        -- rewrite (B i) by lia. cbn [length]. split.
           ++ intros (k & Hk & E). exists (S k). rewrite K by lia. cbn [length] in E. lia.
           ++ intros ([|[|k]] & Hk & E); [lia|cbn in E; lia|]. exists (S k). rewrite K in E by lia. cbn [length]. lia.
    + destruct (IH (step st c) (cur ++ [c])) as (A & B). set (F := cutf (step st c) (cur ++ [c]) l) in *. rewrite app_length in *. cbn [length] in *. split.
      * intros k Hk. specialize (A k Hk). lia.
      * intros [|i] Hi.
        -- split; [discriminate|]. intros (k & Hk & E). specialize (A k Hk). lia.
        -- rewrite (B i) by lia. split; intros (k & Hk & E); exists k; split; auto; lia.
Qed.
Lemma cutf_fields : forall (cut : nat -> Prop) s st, (forall i, i < length s -> (cut i <-> topat st s i = true)) -> fields cut d s (cutf st [] s).
Proof.
  intros cut s st H. split; [apply cutf_ne|]. split; [apply cutf_join|]. intros i Hi. rewrite H by auto. destruct (cutf_cuts s st []) as (_ & B). apply B; auto.
Qed.
(** the last field *)
Fixpoint fixlast (F : list text) : list text :=
  match F with [] => [] | x :: G => match G with [[]] => [x ++ [d]; x] | _ => x :: fixlast G end end.
Lemma fixlast_app : forall F x, fixlast (F ++ [x; []]) = F ++ [x ++ [d]; x].
Proof. induction F as [|y F IH]; intros x; [reflexivity|]. cbn [app]. rewrite <- IH. destruct F as [|[|a z] [|w F]]; destruct x; reflexivity. Qed.
Lemma fixlast_same : forall F, last F [d] <> [] -> fixlast F = F.
Proof.
  induction F as [|x F IH]; intros H; [reflexivity|]. destruct F as [|y F]; [reflexivity|]. assert (R := IH H).
  destruct y as [|a y]; destruct F as [|z F]; try (cbn [fixlast] in *; rewrite ?R; reflexivity). exfalso. apply H. reflexivity.
Qed.
Lemma cutf_last : forall l st cur, (cur <> [] \/ l <> []) ->
  (topat st l (length l - 1) = true /\ exists F x, cutf st cur l = F ++ [x; []]) \/ (topat st l (length l - 1) = false /\ last (cutf st cur l) [d] <> []).
Proof.
  induction l as [|c l IH]; intros st cur NE; cbn [cutf topat length].
  - right. cbn. split; auto. destruct NE; congruence.
  - destruct l as [|c2 l].
    + cbn [length Nat.sub cutf]. destruct (top _ _); [left; split; auto; exists [], cur; auto|right; split; auto; cbn; destruct cur; discriminate].
    + replace (S (length (c2 :: l)) - 1) with (S (length (c2 :: l) - 1)) by (cbn [length]; lia). destruct (top (step st c) c).
      * destruct (IH (step st c) []) as [(T & F & x & E)|(T & E)]; [right; discriminate| |].
        -- left. split; auto. exists (cur :: F), x. rewrite E. auto.
        -- right. split; auto. assert (X := cutf_ne (c2 :: l) (step st c) []). destruct (cutf (step st c) [] (c2 :: l)); [congruence|]. exact E.
      * apply IH. right; discriminate.
Qed.
Lemma fix_cutf : forall s st, s <> [] ->
  (topat st s (length s - 1) = false /\ fixlast (cutf st [] s) = cutf st [] s) \/
  (topat st s (length s - 1) = true /\ exists F x, cutf st [] s = F ++ [x; []] /\ fixlast (cutf st [] s) = F ++ [x ++ [d]; x]).
Proof.
  intros s st NE. destruct (cutf_last s st [] (or_intror NE)) as [(T & F & x & E)|(T & E)]; [right|left; split; auto; apply fixlast_same; auto].
  split; auto. exists F, x. rewrite E. split; auto. apply fixlast_app.
Qed.
Lemma fix_cons : forall x F, (F = [[]] -> False) -> fixlast (x :: F) = x :: fixlast F.
Proof. intros x [|[|] [|]] H; try reflexivity. exfalso; auto. Qed.
Lemma cutf_not_nil : forall l st, l <> [] -> cutf st [] l = [[]] -> False.
Proof. intros l st NE E. assert (J := cutf_join l st []). rewrite E in J. cbn in J. congruence. Qed.
End Cut.
Arguments cutf {Q}. Arguments topat {Q}.

(** brackets *)
Definition pstep (cs ce : ascii) (lv : Z) (c : ascii) : Z := let lv := if Ascii.eqb c cs then (lv + 1)%Z else lv in if Ascii.eqb c ce then (lv - 1)%Z else lv.
Definition ptop (d : ascii) (lv : Z) (c : ascii) : bool := Ascii.eqb c d && (lv =? 0)%Z.
Definition plevel (cs ce : ascii) (s : text) : Z := (Z.of_nat (count_occ ascii_dec s cs) - Z.of_nat (count_occ ascii_dec s ce))%Z.
Lemma plevel_cons : forall cs ce c s lv, (lv + plevel cs ce (c :: s) = pstep cs ce lv c + plevel cs ce s)%Z.
Proof.
  intros. unfold plevel, pstep. cbn [count_occ]. destruct (ascii_dec c cs) as [A|A], (ascii_dec c ce) as [B|B], (Ascii.eqb_spec c cs), (Ascii.eqb_spec c ce); try congruence; lia.
Qed.
Lemma ptopat : forall cs ce d s lv i, i < length s ->
  (topat (pstep cs ce) (ptop d) lv s i = true <-> nth_error s i = Some d /\ (lv + plevel cs ce (firstn (S i) s) = 0)%Z).
Proof.
  induction s as [|c s IH]; intros lv i Hi; cbn [length] in Hi; [lia|]. destruct i as [|i]; cbn [topat].
  - cbn [nth_error]. change (firstn 1 (c :: s)) with [c]. rewrite plevel_cons. unfold ptop. rewrite andb_true_iff, Ascii.eqb_eq, Z.eqb_eq. change (plevel cs ce []) with 0%Z.
    split; intros (A & B); split; try congruence; try lia.
  - rewrite IH by lia. cbn [nth_error]. change (firstn (S (S i)) (c :: s)) with (c :: firstn (S i) s). rewrite plevel_cons. tauto.
Qed.
Definition pbody (str : text) (delimiter cs ce : ascii) (ie : nat) (s : list text * nat * Z) : option (list text * nat * Z) :=
    let '(aToken, is, ilevel) := s in
    aToken <- (if ie =? length str - 1 then t <- substr str is (ie + 1) ;; Some (aToken ++ [t]) else Some aToken) ;;
    c <- vget str ie ;;
    let ilevel := if Ascii.eqb c cs then (ilevel + 1)%Z else ilevel in
    let ilevel := if Ascii.eqb c ce then (ilevel - 1)%Z else ilevel in
    if Ascii.eqb c delimiter && (ilevel =? 0)%Z then t <- substr str is ie ;; Some (aToken ++ [t], ie + 1, ilevel)
    else Some (aToken, is, ilevel).
Lemma pbody_loop : forall d cs ce l str pre cur toks lv, str = pre ++ cur ++ l -> l <> [] ->
  exists is lv', forn_ (length l) (length pre + length cur) (pbody str d cs ce) (toks, length pre, lv) = Some (toks ++ fixlast d (cutf (pstep cs ce) (ptop d) lv cur l), is, lv').
Proof.
  intros d cs ce. induction l as [|c l IH]; intros str pre cur toks lv E NE; [congruence|]. cbn [length forn_ cutf].
  assert (G : vget str (length pre + length cur) = Some c) by (rewrite E, app_assoc, <- app_length; apply vget_mid).
  assert (S1 : substr str (length pre) (length pre + length cur) = Some cur) by (rewrite E; apply substr_mid).
  assert (L : length str = length pre + length cur + S (length l)) by (rewrite E, !app_length; cbn; lia).
  destruct l as [|c2 l].
  - cbn [length forn_ cutf]. unfold pbody at 1. rewrite (proj2 (Nat.eqb_eq _ _)) by (cbn in L; lia).
    assert (S2 : substr str (length pre) (length pre + length cur + 1) = Some (cur ++ [c])).
    { rewrite E. replace (length pre + length cur + 1) with (length pre + length (cur ++ [c])) by (rewrite app_length; cbn; lia). rewrite <- (app_nil_r (cur ++ [c])) at 1. apply substr_mid. }
    rewrite S2. cbn [bind]. rewrite G. cbn [bind]. fold (pstep cs ce lv c). unfold ptop.
    change (if Ascii.eqb c ce then ((if Ascii.eqb c cs then (lv + 1)%Z else lv) - 1)%Z else (if Ascii.eqb c cs then (lv + 1)%Z else lv)) with (pstep cs ce lv c).
    destruct (Ascii.eqb_spec c d) as [->|N]; cbn [andb].
    + destruct (pstep cs ce lv d =? 0)%Z.
      * rewrite S1. cbn [bind]. do 2 eexists. rewrite <- app_assoc. cbn. reflexivity.
      * do 2 eexists. cbn. reflexivity.
    + do 2 eexists. cbn. reflexivity.
  - unfold pbody at 1. rewrite (proj2 (Nat.eqb_neq _ _)) by (cbn [length] in L; lia). cbn [bind]. rewrite G. cbn [bind].
    change (if Ascii.eqb c ce then ((if Ascii.eqb c cs then (lv + 1)%Z else lv) - 1)%Z else (if Ascii.eqb c cs then (lv + 1)%Z else lv)) with (pstep cs ce lv c).
    change (Ascii.eqb c d && (pstep cs ce lv c =? 0)%Z) with (ptop d (pstep cs ce lv c) c). destruct (ptop d (pstep cs ce lv c) c) eqn:T.
    + rewrite S1. cbn [bind]. destruct (IH str (pre ++ cur ++ [c]) [] (toks ++ [cur]) (pstep cs ce lv c)) as (is & lv' & R); [rewrite E, <- !app_assoc; auto|discriminate|].
      exists is, lv'. rewrite fix_cons by (intros X; revert X; apply (cutf_not_nil _ _ _ d); [unfold ptop; intros ? ?; rewrite andb_true_iff, Ascii.eqb_eq; tauto|discriminate]).
      rewrite <- app_assoc in R. cbn [app] in R. etransitivity; [|exact R]. rewrite !app_length. cbn [length]. replace (length pre + (length cur + 1) + 0) with (S (length pre + length cur)) by lia. replace (length pre + (length cur + 1)) with (length pre + length cur + 1) by lia. reflexivity.
    + destruct (IH str pre (cur ++ [c]) toks (pstep cs ce lv c)) as (is & lv' & R); [rewrite E, <- !app_assoc; auto|discriminate|].
      exists is, lv'. etransitivity; [|exact R]. rewrite !app_length. cbn [length]. replace (length pre + (length cur + 1)) with (S (length pre + length cur)) by lia. reflexivity.
Qed.
Lemma Split_Parentheses_eq : forall str d cs ce, Split_Parentheses str d [cs; ce] = Some (if nonempty str then fixlast d (cutf (pstep cs ce) (ptop d) 0%Z [] str) else []).
Proof.
  intros. unfold Split_Parentheses. cbn [length Nat.eqb negb vget nth_error bind]. change (fun (ie : nat) (s : list text * nat * Z) => _) with (pbody str d cs ce).
  destruct str as [|c str]; [reflexivity|]. destruct (pbody_loop d cs ce (c :: str) (c :: str) [] [] [] 0%Z eq_refl ltac:(discriminate)) as (is & lv & R).
  unfold forn. rewrite Nat.sub_0_r. cbn [length Nat.add] in R |- *. rewrite R. reflexivity.
Qed.

(** quotes *)
Definition qstep (q : ascii) (b : bool) (c : ascii) : bool := if Ascii.eqb c q then negb b else b.
Definition qtop (d : ascii) (b : bool) (c : ascii) : bool := Ascii.eqb c d && negb b.
Lemma qtopat : forall q d s b i, i < length s ->
  (topat (qstep q) (qtop d) b s i = true <-> nth_error s i = Some d /\ xorb b (Nat.even (count_occ ascii_dec (firstn (S i) s) q)) = true).
Proof.
  induction s as [|c s IH]; intros b i Hi; cbn [length] in Hi; [lia|].
  assert (K : forall l, xorb b (Nat.even (count_occ ascii_dec (c :: l) q)) = xorb (qstep q b c) (Nat.even (count_occ ascii_dec l q))).
  { intros l. unfold qstep. cbn [count_occ]. destruct (ascii_dec c q), (Ascii.eqb_spec c q); try congruence. rewrite Nat.even_succ, <- Nat.negb_even. destruct b, (Nat.even _); auto. }
  destruct i as [|i]; cbn [topat].
  - cbn [nth_error]. change (firstn 1 (c :: s)) with [c]. rewrite K. unfold qtop. rewrite andb_true_iff, Ascii.eqb_eq. cbn [count_occ Nat.even]. rewrite xorb_true_r. split; intros (A & B); split; congruence.
  - rewrite IH by lia. cbn [nth_error]. change (firstn (S (S i)) (c :: s)) with (c :: firstn (S i) s). rewrite K. tauto.
Qed.
Definition qbody (str : text) (delimiter quote : ascii) (ie : nat) (s : list text * nat * bool) : option (list text * nat * bool) :=
    let '(aToken, is, is_in) := s in
    aToken <- (if ie =? length str - 1 then t <- substr str is (ie + 1) ;; Some (aToken ++ [t]) else Some aToken) ;;
    c <- vget str ie ;;
    let is_in := if Ascii.eqb c quote then negb is_in else is_in in
    if Ascii.eqb c delimiter && negb is_in then
      c0 <- vget str is ;;
      aToken <- (if negb (Ascii.eqb c0 delimiter) then t <- substr str is ie ;; Some (aToken ++ [t]) else Some aToken) ;;
      Some (aToken, ie + 1, is_in)
    else Some (aToken, is, is_in).
Lemma qbody_loop : forall d q, d <> q -> forall l str pre cur toks b, str = pre ++ cur ++ l -> l <> [] -> (cur = [] -> b = false) -> (forall r, cur <> d :: r) ->
  exists is b', forn_ (length l) (length pre + length cur) (qbody str d q) (toks, length pre, b) = Some (toks ++ filter nonempty (fixlast d (cutf (qstep q) (qtop d) b cur l)), is, b').
Proof.
  intros d q DQ. induction l as [|c l IH]; intros str pre cur toks b E NE CB CD; [congruence|]. cbn [length forn_ cutf].
  assert (G : vget str (length pre + length cur) = Some c) by (rewrite E, app_assoc, <- app_length; apply vget_mid).
  assert (S1 : substr str (length pre) (length pre + length cur) = Some cur) by (rewrite E; apply substr_mid).
  assert (L : length str = length pre + length cur + S (length l)) by (rewrite E, !app_length; cbn; lia).
  (* the cut *)
  assert (CUT : qtop d (qstep q b c) c = true -> exists c0, vget str (length pre) = Some c0 /\ negb (Ascii.eqb c0 d) = nonempty cur /\ c = d).
  { unfold qtop. rewrite andb_true_iff, Ascii.eqb_eq. intros (-> & _). destruct cur as [|c0 cur].
    - exists d. cbn [length] in G. rewrite Nat.add_0_r in G. rewrite G, Ascii.eqb_refl. auto.
    - exists c0. rewrite E. cbn [app]. rewrite vget_mid. destruct (Ascii.eqb_spec c0 d) as [->|]; [exfalso; eapply CD; eauto|]. auto. }
  assert (NX : qtop d (qstep q b c) c = false -> (forall r, cur ++ [c] <> d :: r)).
  { intros T r X. destruct cur as [|c0 cur]; [|injection X as -> _; eapply CD; eauto]. cbn in X. injection X as -> _. rewrite (CB eq_refl) in T. unfold qtop, qstep in T. rewrite Ascii.eqb_refl in T.
    destruct (Ascii.eqb_spec d q); [congruence|]. discriminate. }
  destruct l as [|c2 l].
  - cbn [length forn_ cutf]. unfold qbody at 1. rewrite (proj2 (Nat.eqb_eq _ _)) by (cbn in L; lia).
    assert (S2 : substr str (length pre) (length pre + length cur + 1) = Some (cur ++ [c])).
    { rewrite E. replace (length pre + length cur + 1) with (length pre + length (cur ++ [c])) by (rewrite app_length; cbn; lia). rewrite <- (app_nil_r (cur ++ [c])) at 1. apply substr_mid. }
    rewrite S2. cbn [bind]. rewrite G. cbn [bind].
    change (if Ascii.eqb c q then negb b else b) with (qstep q b c). change (Ascii.eqb c d && negb (qstep q b c)) with (qtop d (qstep q b c) c).
    destruct (qtop d (qstep q b c) c) eqn:T.
    + destruct (CUT eq_refl) as (c0 & V & N & ->). rewrite V. cbn [bind]. rewrite N, S1. cbn [bind]. do 2 eexists. cbn [fixlast filter]. unfold nonempty at 2. rewrite app_length. cbn [length]. rewrite (proj2 (Nat.eqb_neq _ _)) by lia. cbn [negb].
      destruct (nonempty cur); cbn [bind]; [rewrite <- app_assoc; cbn [app]; reflexivity|reflexivity].
    + do 2 eexists. cbn [fixlast filter]. unfold nonempty. rewrite app_length. cbn [length]. rewrite (proj2 (Nat.eqb_neq _ _)) by lia. reflexivity.
  - unfold qbody at 1. rewrite (proj2 (Nat.eqb_neq _ _)) by (cbn [length] in L; lia). cbn [bind]. rewrite G. cbn [bind].
    change (if Ascii.eqb c q then negb b else b) with (qstep q b c). change (Ascii.eqb c d && negb (qstep q b c)) with (qtop d (qstep q b c) c).
    destruct (qtop d (qstep q b c) c) eqn:T.
    + destruct (CUT eq_refl) as (c0 & V & N & ->). rewrite V. cbn [bind]. rewrite N, S1. cbn [bind].
      destruct (IH str (pre ++ cur ++ [d]) [] (toks ++ if nonempty cur then [cur] else []) (qstep q b d)) as (is & b' & R); [rewrite E, <- !app_assoc; auto|discriminate| |discriminate|].
      { intros _. unfold qtop in T. rewrite Ascii.eqb_refl in T. cbn in T. destruct (qstep q b d); [discriminate|auto]. }
      exists is, b'. rewrite fix_cons by (intros X; revert X; apply (cutf_not_nil _ _ _ d); [unfold qtop; intros ? ?; rewrite andb_true_iff, Ascii.eqb_eq; tauto|discriminate]).
      cbn [filter]. transitivity (Some ((toks ++ (if nonempty cur then [cur] else [])) ++ filter nonempty (fixlast d (cutf (qstep q) (qtop d) (qstep q b d) [] (c2 :: l))), is, b')).
      2:{ rewrite <- app_assoc. destruct (nonempty cur); reflexivity. }
      etransitivity; [|exact R]. rewrite !app_length. cbn [length]. replace (length pre + (length cur + 1) + 0) with (S (length pre + length cur)) by lia. replace (length pre + length cur + 1) with (length pre + (length cur + 1)) by lia.
      destruct (nonempty cur); cbn [bind]; rewrite ?app_nil_r; reflexivity.
    + destruct (IH str pre (cur ++ [c]) toks (qstep q b c)) as (is & b' & R); [rewrite E, <- !app_assoc; auto|discriminate| |apply NX; auto|].
      { intros X. destruct cur; discriminate. }
      exists is, b'. etransitivity; [|exact R]. rewrite !app_length. cbn [length bind]. replace (length pre + (length cur + 1)) with (S (length pre + length cur)) by lia. reflexivity.
Qed.
Lemma Split_Quote_eq : forall str d q, d <> q -> Split_Quote str d q = Some (if nonempty str then filter nonempty (fixlast d (cutf (qstep q) (qtop d) false [] str)) else []).
Proof.
  intros str d q DQ. unfold Split_Quote. change (fun (ie : nat) (s : list text * nat * bool) => _) with (qbody str d q).
  destruct str as [|c str]; [reflexivity|]. destruct (qbody_loop d q DQ (c :: str) (c :: str) [] [] [] false eq_refl ltac:(discriminate) (fun _ => eq_refl) ltac:(discriminate)) as (is & lv & R).
  unfold forn. rewrite Nat.sub_0_r. cbn [length Nat.add] in R |- *. rewrite R. reflexivity.
Qed.

(** tokens *)
Definition utop (D : ascii -> bool) (_ : unit) (c : ascii) : bool := D c.
Definition ustep (_ : unit) (_ : ascii) : unit := tt.
Lemma tokens_delim : forall (D : ascii -> Prop) c s ts, D c -> tokens D s ts -> tokens D (c :: s) ts.
Proof.
  intros D c s ts H T. destruct T.
  - apply tk_nil. intros x [<-|Hx]; auto.
  - change (c :: g ++ t ++ rest) with ((c :: g) ++ t ++ rest). apply tk_cons; auto. intros x [<-|Hx]; auto.
Qed.
Lemma cutf_tokens : forall (D : ascii -> bool) l cur, (forall c, In c cur -> D c = false) -> tokens (fun c => D c = true) (cur ++ l) (filter nonempty (cutf ustep (utop D) tt cur l)).
Proof.
  intros D. induction l as [|c l IH]; intros cur H; cbn [cutf].
  - rewrite app_nil_r. destruct cur as [|c cur]; [apply tk_nil; intros ? []|]. cbn [filter nonempty length Nat.eqb negb].
    rewrite <- (app_nil_r (c :: cur)) at 1. change ((c :: cur) ++ []) with ([] ++ (c :: cur) ++ []). apply tk_cons; [intros ? []|discriminate|intros x Hx; rewrite H by auto; discriminate|left; auto|apply tk_nil; intros ? []].
  - unfold utop at 1. destruct (D c) eqn:E.
    + assert (T : tokens (fun c => D c = true) (c :: l) (filter nonempty (cutf ustep (utop D) tt [] l))) by (apply tokens_delim; auto; apply (IH []); intros ? []).
      cbn [filter]. destruct cur as [|x cur]; [exact T|]. cbn [nonempty length Nat.eqb negb]. change ((x :: cur) ++ c :: l) with ([] ++ (x :: cur) ++ c :: l).
      apply tk_cons; [intros ? []|discriminate|intros y Hy; rewrite H by auto; discriminate|right; eauto|exact T].
    + replace (cur ++ c :: l) with ((cur ++ [c]) ++ l) by (rewrite <- app_assoc; auto). apply IH. intros x Hx. apply in_app_or in Hx. destruct Hx as [Hx|[<-|[]]]; auto.
Qed.
Lemma read_line_len : forall d s, s <> [] -> length (snd (read_line d s)) < length s.
Proof.
  induction s as [|c s IH]; intros H; [congruence|]. cbn [read_line]. destruct (Ascii.eqb c d); [cbn; lia|]. destruct s as [|c2 s]; [cbn; lia|].
  specialize (IH ltac:(discriminate)). destruct (read_line d (c2 :: s)). cbn [snd length] in *. lia.
Qed.
Lemma read_line_cut : forall d s cur, filter nonempty (cutf ustep (utop (fun c => Ascii.eqb c d)) tt cur s) =
  (if nonempty (cur ++ fst (read_line d s)) then [cur ++ fst (read_line d s)] else []) ++ filter nonempty (cutf ustep (utop (fun c => Ascii.eqb c d)) tt [] (snd (read_line d s))).
Proof.
  induction s as [|c s IH]; intros cur; cbn [read_line cutf].
  - unfold text in *. cbn [filter fst snd cutf nonempty length Nat.eqb negb]. rewrite !app_nil_r. destruct (nonempty cur); reflexivity.
  - unfold utop at 1. destruct (Ascii.eqb c d).
    + unfold text in *. cbn [fst snd]. rewrite (app_nil_r cur). cbn [filter]. destruct (nonempty cur); auto.
    + rewrite IH. destruct (read_line d s) as (l, r). cbn [fst snd]. rewrite <- app_assoc. auto.
Qed.
Lemma Split_loop_eq : forall d fuel s toks, length s < fuel -> Split_loop fuel d s toks = Some (toks ++ filter nonempty (cutf ustep (utop (fun c => Ascii.eqb c d)) tt [] s)).
Proof.
  intros d. induction fuel as [|fuel IH]; intros s toks L; [lia|]. cbn [Split_loop]. destruct s as [|c s]; [cbn; rewrite app_nil_r; auto|]. unfold getline.
  assert (A := read_line_len d (c :: s) ltac:(discriminate)). rewrite (read_line_cut d (c :: s) []). destruct (read_line d (c :: s)) as (l, r) eqn:E. cbn [fst snd app] in *.
  unfold nonempty at 1. destruct (length l =? 0); cbn [negb app]; rewrite IH by (cbn [length] in L, A; lia); auto. rewrite <- app_assoc. auto.
Qed.
Lemma Split_eq : forall s d, Split s d = Some (filter nonempty (cutf ustep (utop (fun c => Ascii.eqb c d)) tt [] s)).
Proof. intros. unfold Split. rewrite Split_loop_eq by lia. auto. Qed.

Definition sbody (str del : text) (i : nat) (s : list text * nat * bool) : option (list text * nat * bool) :=
    let '(aToken, imark, is_del0) := s in
    c <- vget str i ;;
    is_del1 <- is_in c del ;;
    aToken <- (if negb is_del0 && is_del1 then t <- substr str imark i ;; Some (aToken ++ [t]) else Some aToken) ;;
    let imark := if is_del0 && negb is_del1 then i else imark in
    Some (aToken, imark, is_del1).
Lemma sbody_loop : forall del l str pre cur mark toks, str = pre ++ cur ++ l -> (cur <> [] -> mark = length pre) ->
  exists toks' mark' del0, forn_ (length l) (length pre + length cur) (sbody str del) (toks, mark, negb (nonempty cur)) = Some (toks', mark', del0) /\
   (if negb del0 then t <- substr str mark' (length str) ;; Some (toks' ++ [t]) else Some toks') = Some (toks ++ filter nonempty (cutf ustep (utop (fun c => existsb (Ascii.eqb c) del)) tt cur l)).
Proof.
  intros del. induction l as [|c l IH]; intros str pre cur mark toks E M; cbn [length forn_ cutf].
  - do 3 eexists. split; [reflexivity|]. rewrite negb_involutive. cbn [filter]. destruct cur as [|x cur]; [cbn; rewrite app_nil_r; auto|]. cbn [nonempty length Nat.eqb negb]. rewrite M by discriminate.
    assert (S1 : substr str (length pre) (length pre + length (x :: cur)) = Some (x :: cur)) by (rewrite E; apply substr_mid). rewrite E at 2. rewrite app_nil_r, app_length, S1. reflexivity.
  - assert (G : vget str (length pre + length cur) = Some c) by (rewrite E, app_assoc, <- app_length; apply vget_mid). unfold sbody at 1. rewrite G. cbn [bind]. rewrite is_in_ok. cbn [bind]. unfold utop at 1.
    destruct (existsb (Ascii.eqb c) del) eqn:D.
    + rewrite negb_involutive, !andb_true_r, andb_false_r. cbn [filter].
      assert (S1 : substr str (length pre) (length pre + length cur) = Some cur) by (rewrite E; apply substr_mid).
      destruct (IH str (pre ++ cur ++ [c]) [] mark (toks ++ if nonempty cur then [cur] else [])) as (t' & m' & d' & R1 & R2); [rewrite E, <- !app_assoc; auto|congruence|].
      exists t', m', d'. rewrite <- app_assoc in R2. rewrite !app_length in R1. cbn [length nonempty Nat.eqb negb] in R1. replace (length pre + (length cur + 1) + 0) with (S (length pre + length cur)) in R1 by lia.
      split; [|rewrite R2; destruct (nonempty cur); auto]. etransitivity; [|exact R1]. destruct cur as [|x cur]; cbn [nonempty length Nat.eqb negb bind]; [rewrite app_nil_r; auto|]. rewrite M by discriminate. cbn [length] in S1. rewrite S1. reflexivity.
    + rewrite andb_false_r, andb_true_r. cbn [bind].
      destruct (IH str pre (cur ++ [c]) (if negb (nonempty cur) then length pre + length cur else mark) toks) as (t' & m' & d' & R1 & R2).
      { rewrite E, <- !app_assoc; auto. } { intros _. destruct cur as [|x cur]; cbn [nonempty length Nat.eqb negb]; [lia|]. apply M; discriminate. }
      exists t', m', d'. split; auto. etransitivity; [|exact R1]. assert (X : nonempty (cur ++ [c]) = true) by (unfold nonempty; rewrite app_length; cbn [length]; rewrite (proj2 (Nat.eqb_neq (length cur + 1) 0)) by lia; reflexivity). rewrite X, !app_length. cbn [length negb].
      replace (length pre + (length cur + 1)) with (S (length pre + length cur)) by lia. reflexivity.
Qed.
Lemma Split_set_eq : forall s del, Split_set s del = Some (filter nonempty (cutf ustep (utop (fun c => existsb (Ascii.eqb c) del)) tt [] s)).
Proof.
  intros. unfold Split_set. change (fun (i : nat) (s0 : list text * nat * bool) => _) with (sbody s del). destruct (sbody_loop del s s [] [] 0 [] eq_refl ltac:(congruence)) as (t & m & b & R1 & R2).
  unfold forn. rewrite Nat.sub_0_r. cbn [length Nat.add nonempty Nat.eqb negb] in R1. rewrite R1. cbn [bind]. exact R2.
Qed.
