(** Filtering, trimming, quotes, brackets and markup. *)
From Coq Require Import List Arith ZArith Bool Ascii Lia.
Import ListNotations.
From Verif Require Import Imp StrModel StrSpec StrProofs1.
Open Scope char_scope. Open Scope nat_scope.

Lemma forn_split : forall {S} (f : nat -> S -> option S) a b i s, forn_ (a + b) i f s = bind (forn_ a i f s) (forn_ b (i + a) f).
Proof.
  induction a as [|a IH]; intros b i s; cbn [Nat.add forn_ bind]; [rewrite Nat.add_0_r; auto|]. destruct (f i s); cbn [bind]; auto. rewrite IH. replace (i + Datatypes.S a) with (Datatypes.S i + a) by lia. auto.
Qed.
Lemma forn_quiet : forall {S} (f : nat -> S -> option S) s n i, (forall j, i <= j < i + n -> f j s = Some s) -> forn_ n i f s = Some s.
Proof. induction n as [|n IH]; intros i H; cbn [forn_]; auto. rewrite H by lia. cbn [bind]. apply IH. intros. apply H. lia. Qed.
Lemma snoc_mid : forall {T} (a : list T) x b, a ++ x :: b = (a ++ [x]) ++ b. Proof. intros. rewrite <- app_assoc. auto. Qed.
Lemma snoc_len : forall {T} (a : list T) x, S (length a) = length (a ++ [x]). Proof. intros. rewrite app_length. cbn. lia. Qed.

(** Remove, Replace *)
Lemma Remove_ok : forall s del, Remove s del = Some (filter (fun c => negb (existsb (Ascii.eqb c) del)) s).
Proof.
  intros. unfold Remove, forn. rewrite Nat.sub_0_r.
  assert (G : forall l pre out, s = pre ++ l -> forn_ (length l) (length pre) (fun i ss => c <- vget s i ;; is_del <- is_in c del ;; if is_del : bool then Some ss else Some (ss ++ [c])) out = Some (out ++ filter (fun c => negb (existsb (Ascii.eqb c) del)) l)).
  { induction l as [|c l IH]; intros pre out E; cbn [length forn_ filter]; [rewrite app_nil_r; auto|]. rewrite E at 1. rewrite vget_mid. cbn [bind]. rewrite is_in_ok. cbn [bind]. rewrite (snoc_len pre c).
    destruct (existsb _ _); cbn [bind negb]; rewrite IH by (rewrite <- snoc_mid; auto); auto. rewrite <- app_assoc. auto. }
  apply (G s [] [] eq_refl).
Qed.
Lemma RemoveSpace_ok : forall s, RemoveSpace s = Some (filter (fun c => negb (Ascii.eqb c " ")) s).
Proof. intros. unfold RemoveSpace. rewrite Remove_ok. f_equal. apply filter_ext. intros c. cbn [existsb]. rewrite orb_false_r. auto. Qed.
Lemma vset_mid : forall {T} (a : list T) x y b, vset (a ++ x :: b) (length a) y = Some (a ++ y :: b).
Proof. induction a as [|z a IH]; intros; cbn; auto. rewrite IH. auto. Qed.
Lemma Replace_ok : forall s cf ct, Replace s cf ct = Some (map (fun c => if Ascii.eqb c cf then ct else c) s).
Proof.
  intros. unfold Replace, forn. rewrite Nat.sub_0_r. set (r := fun c => if Ascii.eqb c cf then ct else c).
  assert (G : forall l pre, forn_ (length l) (length pre) (fun i ss => c <- vget ss i ;; if negb (Ascii.eqb c cf) then Some ss else vset ss i ct) (pre ++ l) = Some (pre ++ map r l)).
  { induction l as [|c l IH]; intros pre; cbn [length forn_ map]; auto. rewrite vget_mid. cbn [bind]. unfold r at 1. destruct (Ascii.eqb c cf); cbn [negb].
    - rewrite vset_mid. cbn [bind]. rewrite snoc_mid, (snoc_len pre ct), IH, <- app_assoc. auto.
    - cbn [bind]. rewrite snoc_mid, (snoc_len pre c), IH, <- app_assoc. auto. }
  apply (G s []).
Qed.

(** RemoveBeginning *)
Definition rbbody (s del : text) := fun i (istat : nat) => c <- vget s i ;; is_del <- is_in c del ;; if is_del : bool then Some (istat, false) else Some (i, true).
Lemma rb_all : forall del l pre s k, s = pre ++ l -> (forall c, In c l -> In c del) -> forb_ (length l) (length pre) (rbbody s del) k = Some k.
Proof.
  intros del. induction l as [|c l IH]; intros pre s k E H; cbn [length forb_]; auto. unfold rbbody at 1. rewrite E at 1. rewrite vget_mid. cbn [bind]. rewrite is_in_ok. cbn [bind].
  rewrite (proj2 (existsb_in c del)) by (apply H; left; auto). cbn [bind]. rewrite (snoc_len pre c). apply IH; [rewrite <- snoc_mid; auto|]. intros; apply H; right; auto.
Qed.
Lemma rb_hit : forall del g c r pre s k, s = pre ++ g ++ c :: r -> (forall x, In x g -> In x del) -> ~ In c del -> forb_ (length (g ++ c :: r)) (length pre) (rbbody s del) k = Some (length pre + length g).
Proof.
  intros del. induction g as [|x g IH]; intros c r pre s k E H N; cbn [app length forb_]; unfold rbbody at 1.
  - rewrite E at 1. cbn [app]. rewrite vget_mid. cbn [bind]. rewrite is_in_ok. cbn [bind]. destruct (existsb _ del) eqn:X; [apply existsb_in in X; tauto|]. cbn [bind]. rewrite Nat.add_0_r. auto.
  - rewrite E at 1. cbn [app]. rewrite vget_mid. cbn [bind]. rewrite is_in_ok. cbn [bind]. rewrite (proj2 (existsb_in x del)) by (apply H; left; auto). cbn [bind]. rewrite (snoc_len pre x).
    replace (length pre + S (length g)) with (length (pre ++ [x]) + length g) by (rewrite app_length; cbn; lia). apply IH; auto; [rewrite E, <- app_assoc; auto|]. intros; apply H; right; auto.
Qed.
Lemma trim_cases : forall (del s : text), (forall c, In c s -> In c del) \/ exists g c r, s = g ++ c :: r /\ (forall x, In x g -> In x del) /\ ~ In c del.
Proof.
  induction s as [|c s IH]; [left; intros ? []|]. destruct (in_dec ascii_dec c del) as [H|H].
  - destruct IH as [A|(g & c' & r & E & A & B)]; [left; intros x [<-|Hx]; auto|]. right. exists (c :: g), c', r. split; [rewrite E; auto|]. split; auto. intros x [<-|Hx]; auto.
  - right. exists [], c, s. split; auto. split; auto. intros ? [].
Qed.
Lemma RemoveBeginning_ok : forall s del, exists r, RemoveBeginning s del = Some r /\ trimmed (fun c => In c del) s r.
Proof.
  intros s del. unfold RemoveBeginning. change (fun (i istat : nat) => _) with (rbbody s del). unfold forb. rewrite Nat.sub_0_r.
  destruct (trim_cases del s) as [A|(g & c & r & E & A & B)].
  - exists s. assert (X := rb_all del s [] s 0 eq_refl A). cbn [length] in X. rewrite X. cbn [bind]. split; [|apply tr_all; auto]. unfold substr. rewrite Nat.leb_refl, Nat.sub_0_r. cbn. rewrite firstn_all. auto.
  - exists (c :: r). rewrite E. assert (X0 := rb_hit del g c r [] (g ++ c :: r) 0 eq_refl A B). cbn [length Nat.add] in X0. rewrite X0. cbn [bind length Nat.add]. split; [|apply tr_drop; auto].
    assert (X := substr_mid g (c :: r) []). rewrite app_nil_r in X. rewrite app_length. exact X.
Qed.

(** scans *)
Lemma bscan_hit : forall {R} (g : R -> R) (mk : nat -> R) str q a c extra done r, str = a ++ q :: c ++ done -> ~ In q c ->
  forb_ (S (length c) + extra) (length done) (fun k r => let i := length str - 1 - k in x <- vget str i ;; if Ascii.eqb x q then Some (mk i, true) else Some (g r, false)) r = Some (mk (length a)).
Proof.
  intros R g mk str q a c. induction c as [|x c IH] using rev_ind; intros extra done r E N; cbn [Nat.add forb_].
  - assert (I : length str - 1 - length done = length a) by (rewrite E, !app_length; cbn [length app]; lia). rewrite I. rewrite E at 1. rewrite vget_mid. cbn [bind]. rewrite Ascii.eqb_refl. reflexivity.
  - assert (I : length str - 1 - length done = length (a ++ q :: c)) by (rewrite E, !app_length; cbn [length]; rewrite !app_length; cbn [length]; lia). rewrite I.
    assert (V : vget str (length (a ++ q :: c)) = Some x). { rewrite E, <- app_assoc. cbn [app]. replace (a ++ q :: c ++ x :: done) with ((a ++ q :: c) ++ x :: done) by (rewrite <- app_assoc; auto). apply vget_mid. }
    rewrite V. cbn [bind]. destruct (Ascii.eqb_spec x q) as [->|_]; [exfalso; apply N, in_or_app; right; left; auto|]. cbn [bind].
    rewrite app_length. cbn [length]. replace (length c + 1 + extra) with (S (length c) + extra) by lia. change (S (length done)) with (length (x :: done)). apply IH; [rewrite E, <- app_assoc; auto|]. intros H. apply N, in_or_app. auto.
Qed.
Lemma bscan_miss : forall {R} (mk : nat -> R) str q a c done r, str = a ++ c ++ done -> ~ In q c ->
  forb_ (length c) (length done) (fun k r => let i := length str - 1 - k in x <- vget str i ;; if Ascii.eqb x q then Some (mk i, true) else Some (r, false)) r = Some r.
Proof.
  intros R mk str q a c. induction c as [|x c IH] using rev_ind; intros done r E N; [reflexivity|]. rewrite app_length, Nat.add_1_r. cbn [forb_].
  assert (I : length str - 1 - length done = length (a ++ c)) by (rewrite E, !app_length; cbn [length]; lia). rewrite I.
  assert (V : vget str (length (a ++ c)) = Some x) by (rewrite E, <- app_assoc; cbn [app]; rewrite app_assoc; apply vget_mid).
  rewrite V. cbn [bind]. destruct (Ascii.eqb_spec x q) as [->|_]; [exfalso; apply N, in_or_app; right; left; auto|]. cbn [bind].
  change (S (length done)) with (length (x :: done)). apply IH; [rewrite E, <- app_assoc; auto|]. intros H. apply N, in_or_app. auto.
Qed.
Lemma fscan_hit : forall {R} (g : nat -> R -> R) (mk : nat -> R) q b a pre str r, str = pre ++ a ++ q :: b -> ~ In q a ->
  forb_ (length (a ++ q :: b)) (length pre) (fun i r => x <- vget str i ;; if Ascii.eqb x q then Some (mk i, true) else Some (g i r, false)) r = Some (mk (length pre + length a)).
Proof.
  intros R g mk q b. induction a as [|x a IH]; intros pre str r E N; cbn [app length forb_]; rewrite E at 1; cbn [app]; rewrite vget_mid; cbn [bind].
  - rewrite Ascii.eqb_refl, Nat.add_0_r. reflexivity.
  - destruct (Ascii.eqb_spec x q) as [->|_]; [exfalso; apply N; left; auto|]. cbn [bind]. rewrite (snoc_len pre x). rewrite IH by (try (rewrite E, <- app_assoc; auto); intros H; apply N; right; auto). rewrite app_length. cbn [length]. f_equal. f_equal. lia.
Qed.
Lemma fscan_miss : forall {R} (mk : nat -> R) q a pre str r, str = pre ++ a -> ~ In q a ->
  forb_ (length a) (length pre) (fun i r => x <- vget str i ;; if Ascii.eqb x q then Some (mk i, true) else Some (r, false)) r = Some r.
Proof.
  intros R mk q. induction a as [|x a IH]; intros pre str r E N; cbn [length forb_]; auto. rewrite E at 1. rewrite vget_mid. cbn [bind].
  destruct (Ascii.eqb_spec x q) as [->|_]; [exfalso; apply N; left; auto|]. cbn [bind]. rewrite (snoc_len pre x). apply IH; [rewrite E, <- app_assoc; auto|]. intros H; apply N; right; auto.
Qed.
Lemma nq_ok : forall q s, forn 0 (length s) (fun i nq => c <- vget s i ;; Some (if Ascii.eqb c q then S nq else nq)) 0 = Some (count_occ ascii_dec s q).
Proof.
  intros. unfold forn. rewrite Nat.sub_0_r.
  assert (G : forall l pre n, s = pre ++ l -> forn_ (length l) (length pre) (fun i nq => c <- vget s i ;; Some (if Ascii.eqb c q then S nq else nq)) n = Some (n + count_occ ascii_dec l q)).
  { induction l as [|c l IH]; intros pre n E; cbn [length forn_ count_occ]; [rewrite Nat.add_0_r; auto|]. rewrite E at 1. rewrite vget_mid. cbn [bind]. rewrite (snoc_len pre c), IH by (rewrite <- snoc_mid; auto).
    destruct (ascii_dec c q), (Ascii.eqb_spec c q); try congruence; f_equal; lia. }
  apply (G s [] 0 eq_refl).
Qed.
Lemma Remove_Quote_few : forall s q, count_occ ascii_dec s q < 2 -> Remove_Quote s q = Some s.
Proof. intros. unfold Remove_Quote. rewrite nq_ok. cbn [bind]. rewrite (proj2 (Nat.ltb_lt _ _)) by auto. auto. Qed.
Lemma Remove_Quote_two : forall a b c q, ~ In q a -> ~ In q c -> Remove_Quote (a ++ q :: b ++ q :: c) q = Some b.
Proof.
  intros a b c q Na Nc. unfold Remove_Quote. rewrite nq_ok. cbn [bind]. set (s := a ++ q :: b ++ q :: c).
  assert (2 <= count_occ ascii_dec s q). { unfold s. rewrite count_occ_app. cbn [count_occ]. destruct (ascii_dec q q); [|congruence]. rewrite count_occ_app. cbn [count_occ]. destruct (ascii_dec q q); [|congruence]. lia. }
  rewrite (proj2 (Nat.ltb_ge _ _)) by auto. unfold forb. rewrite Nat.sub_0_r.
  assert (L : length s = S (length c) + (length a + 1 + length b)) by (unfold s; rewrite app_length; cbn [length]; rewrite app_length; cbn [length]; lia).
  assert (F := @fscan_hit nat (fun i _ => S i) (fun i => i) q (b ++ q :: c) a [] s 0 eq_refl Na). fold s in F. cbn [length Nat.add] in F. rewrite F. cbn [bind].
  assert (B := @bscan_hit (option nat) (fun _ => None) (fun i => Some i) s q (a ++ q :: b) c (length a + 1 + length b) [] (Some (length s - 1))). rewrite <- L in B. cbn [length] in B.
  assert (SP : s = (a ++ [q]) ++ b ++ q :: c) by (unfold s; rewrite <- app_assoc; auto).
  rewrite B; auto; [|unfold s; rewrite app_nil_r, <- app_assoc; auto]. cbn [bind]. rewrite SP at 1.
  replace (length a + 1) with (length (a ++ [q])) by (rewrite app_length; auto). replace (length (a ++ q :: b)) with (length (a ++ [q]) + length b) by (rewrite !app_length; cbn [length]; lia). apply substr_mid.
Qed.
Lemma Get_Parentheses_two : forall a b c cs ce, ~ In cs a -> ~ In ce c -> Get_Parentheses (a ++ cs :: b ++ ce :: c) [cs; ce] = Some b.
Proof.
  intros a b c cs ce Na Nc. unfold Get_Parentheses. cbn [length Nat.eqb negb vget nth_error bind]. set (s := a ++ cs :: b ++ ce :: c). unfold forb at 1. rewrite Nat.sub_0_r.
  assert (F := @fscan_hit (option nat) (fun _ r => r) (fun i => Some i) cs (b ++ ce :: c) a [] s None eq_refl Na). fold s in F. cbn [length Nat.add] in F. rewrite F. cbn [bind].
  assert (SP : s = (a ++ [cs]) ++ b ++ ce :: c) by (unfold s; rewrite <- app_assoc; auto).
  assert (L : length s - length a = S (length c) + (1 + length b)) by (unfold s; rewrite app_length; cbn [length]; rewrite app_length; cbn [length]; lia).
  unfold forb. rewrite Nat.sub_0_r, L.
  assert (B := @bscan_hit (option nat) (fun r => r) (fun i => Some i) s ce (a ++ cs :: b) c (1 + length b) [] None). cbn [length] in B. rewrite B; auto; [|unfold s; rewrite app_nil_r, <- app_assoc; auto].
  cbn [bind]. rewrite SP at 1. replace (length a + 1) with (length (a ++ [cs])) by (rewrite app_length; auto). replace (length (a ++ cs :: b)) with (length (a ++ [cs]) + length b) by (rewrite !app_length; cbn [length]; lia). apply substr_mid.
Qed.
Lemma Get_Parentheses_none : forall s cs ce, ~ In cs s -> Get_Parentheses s [cs; ce] = Some [].
Proof.
  intros s cs ce N. unfold Get_Parentheses. cbn [length Nat.eqb negb vget nth_error bind]. unfold forb at 1. rewrite Nat.sub_0_r.
  assert (F := @fscan_miss (option nat) (fun i => Some i) cs s [] s None eq_refl N). cbn [length] in F. rewrite F. reflexivity.
Qed.
Lemma Get_Parentheses_noend : forall a b cs ce, ~ In cs a -> cs <> ce -> ~ In ce b -> Get_Parentheses (a ++ cs :: b) [cs; ce] = Some [].
Proof.
  intros a b cs ce N D M. unfold Get_Parentheses. cbn [length Nat.eqb negb vget nth_error bind]. set (s := a ++ cs :: b). unfold forb at 1. rewrite Nat.sub_0_r.
  assert (F := @fscan_hit (option nat) (fun _ r => r) (fun i => Some i) cs b a [] s None eq_refl N). fold s in F. cbn [length Nat.add] in F. rewrite F. cbn [bind].
  unfold forb. rewrite Nat.sub_0_r. replace (length s - length a) with (length (cs :: b)) by (unfold s; rewrite app_length; cbn [length]; lia).
  assert (B := @bscan_miss (option nat) (fun i => Some i) s ce a (cs :: b) [] None). cbn [length] in B. cbn [length]. rewrite B; auto; [unfold s; rewrite app_nil_r; auto|]. intros [H|H]; auto.
Qed.

(** markup *)
Fixpoint xpf (st : bool) (cur l : text) : list text :=
  match l with
  | [] => []
  | c :: l => if Ascii.eqb c "<" && st then cur :: xpf false [] l else if Ascii.eqb c ">" && negb st then cur :: xpf true [] l else xpf st (cur ++ [c]) l
  end.
Lemma xpf_pieces : forall l cur,
  (~ In "<" cur -> xml_pieces (cur ++ l) (xpf true cur l)) /\
  (~ In ">" cur -> (~ In ">" (cur ++ l) /\ xpf false cur l = []) \/ exists t rest ps, cur ++ l = t ++ ">" :: rest /\ ~ In ">" t /\ xpf false cur l = t :: ps /\ xml_pieces rest ps).
Proof.
  induction l as [|c l IH]; intros cur; cbn [xpf].
  - split; intros N; [constructor; rewrite app_nil_r; auto|left; rewrite app_nil_r; auto].
  - split; intros N.
    + rewrite andb_true_r, andb_false_r. destruct (Ascii.eqb_spec c "<") as [->|D].
      * destruct (IH []) as (_ & B). destruct (B ltac:(intros [])) as [(B1 & B2)|(t & rest & ps & B1 & B2 & B3 & B4)].
        -- rewrite B2. apply xp_open; auto.
        -- rewrite B3. cbn [app] in B1. rewrite B1. apply xp_tag; auto.
      * rewrite snoc_mid. apply IH. intros H. apply in_app_or in H. destruct H as [H|[H|[]]]; auto.
    + rewrite andb_false_r, andb_true_r. destruct (Ascii.eqb_spec c ">") as [->|D].
      * right. exists cur, l, (xpf true [] l). split; auto. split; auto. split; auto. apply (IH []). intros [].
      * rewrite snoc_mid. apply IH. intros H. apply in_app_or in H. destruct H as [H|[H|[]]]; auto.
Qed.
Lemma xml_det : forall s ps, xml_pieces s ps -> forall ps', xml_pieces s ps' -> ps = ps'.
Proof.
  assert (K : forall (q : ascii) a a' b b', a ++ q :: b = a' ++ q :: b' -> ~ In q a -> ~ In q a' -> a = a' /\ b = b').
  { intros q a. induction a as [|x a IH]; intros [|y a'] b b' E N N'; cbn [app] in E; injection E; intros; subst; auto.
    - exfalso. apply N'. left; auto.
    - exfalso. apply N. left; auto.
    - destruct (IH a' b b'); auto; [intros ?; apply N; right; auto|intros ?; apply N'; right; auto|]. subst. auto. }
  intros s ps H. induction H as [c Nc|c t Nc Nt|c t rest ps Nc Nt H IH]; intros ps' H'.
  - inversion H'; subst; auto; exfalso; apply Nc, in_or_app; right; left; auto.
  - inversion H' as [c' N1 E1|c' t' N1 N2 E1|c' t' r' p' N1 N2 H2 E1]; subst.
    + exfalso. apply N1, in_or_app; right; left; auto.
    + destruct (K _ _ _ _ _ E1 N1 Nc). subst. auto.
    + destruct (K _ _ _ _ _ E1 N1 Nc). subst. exfalso. apply Nt, in_or_app; right; left; auto.
  - inversion H' as [c' N1 E1|c' t' N1 N2 E1|c' t' r' p' N1 N2 H2 E1]; subst.
    + exfalso. apply N1, in_or_app; right; left; auto.
    + destruct (K _ _ _ _ _ E1 N1 Nc). subst. exfalso. apply N2, in_or_app; right; left; auto.
    + destruct (K _ _ _ _ _ E1 N1 Nc). subst. destruct (K _ _ _ _ _ H1 N2 Nt). subst. rewrite (IH p'); auto.
Qed.
Lemma cstr_app : forall t r, ~ In "000" t -> cstr (t ++ "000" :: r) = Some t.
Proof. induction t as [|c t IH]; intros r N; cbn [app cstr]; [reflexivity|]. destruct (Ascii.eqb_spec c "000") as [->|_]; [exfalso; apply N; left; auto|]. rewrite IH by (intros ?; apply N; right; auto). reflexivity. Qed.
Definition xbody (st : text * nat * nat * bool * list text) : option ((text * nat * nat * bool * list text) * bool) :=
    let '(buffer, s, mark, state1, aStr) := st in
    c <- vget buffer s ;;
    if Ascii.eqb c "000" then Some (st, true) else
    if Ascii.eqb c "<" && state1 then
      buffer <- vset buffer s "000" ;; t <- cstr (skipn mark buffer) ;; Some ((buffer, s + 1, s + 1, false, aStr ++ [t]), false)
    else if Ascii.eqb c ">" && negb state1 then
      buffer <- vset buffer s "000" ;; t <- cstr (skipn mark buffer) ;; Some ((buffer, s + 1, s + 1, true, aStr ++ [t]), false)
    else Some ((buffer, s + 1, mark, state1, aStr), false).
Lemma skipn_mid : forall {T} (a b : list T), skipn (length a) (a ++ b) = b. Proof. intros. rewrite skipn_app, skipn_all, Nat.sub_diag. auto. Qed.
Lemma xloop : forall junk l fuel done cur st out, length l < fuel -> ~ In "000" cur -> ~ In "000" l ->
  exists b s m st', loopf fuel xbody (done ++ cur ++ l ++ "000" :: junk, length done + length cur, length done, st, out) = Some (b, s, m, st', out ++ xpf st cur l).
Proof.
  intros junk. induction l as [|c l IH]; intros fuel done cur st out F N0 N1; (destruct fuel as [|fuel]; [cbn [length] in F; lia|]); cbn [loopf xpf].
  - unfold xbody at 1. rewrite app_assoc, <- app_length. cbn [app]. rewrite vget_mid. cbn [bind]. rewrite app_nil_r. do 4 eexists. cbn. reflexivity.
  - assert (C0 : c <> "000") by (intros ->; apply N1; left; auto). assert (N2 : ~ In "000" l) by (intros ?; apply N1; right; auto). cbn [length] in F.
    unfold xbody at 1. rewrite app_assoc, <- app_length. cbn [app]. rewrite vget_mid. cbn [bind]. destruct (Ascii.eqb_spec c "000"); [congruence|].
    assert (V : vset ((done ++ cur) ++ c :: l ++ "000" :: junk) (length (done ++ cur)) "000" = Some (done ++ cur ++ "000" :: l ++ "000" :: junk)) by (rewrite vset_mid, <- app_assoc; auto).
    assert (SK : forall r, skipn (length done) (done ++ cur ++ r) = cur ++ r) by (intros; apply skipn_mid).
    assert (NX : forall st, exists b s m st', loopf fuel xbody (done ++ cur ++ "000" :: l ++ "000" :: junk, length (done ++ cur) + 1, length (done ++ cur) + 1, st, out ++ [cur]) = Some (b, s, m, st', out ++ cur :: xpf st [] l)).
    { intros st0. destruct (IH fuel (done ++ cur ++ ["000"]) [] st0 (out ++ [cur])) as (b & s & m & st' & R); [lia|intros []|auto|]. exists b, s, m, st'. rewrite <- !app_assoc in R. cbn [app] in R.
      etransitivity; [|exact R]. rewrite !app_length. cbn [length]. replace (length done + (length cur + 1) + 0) with (length done + length cur + 1) by lia. replace (length done + (length cur + 1)) with (length done + length cur + 1) by lia. reflexivity. }
    destruct (Ascii.eqb c "<" && st) eqn:T1; [|destruct (Ascii.eqb c ">" && negb st) eqn:T2].
    + rewrite V. cbn [bind]. rewrite SK, cstr_app by auto. cbn [bind]. apply NX.
    + rewrite V. cbn [bind]. rewrite SK, cstr_app by auto. cbn [bind]. apply NX.
    + cbn [bind]. destruct (IH fuel done (cur ++ [c]) st out) as (b & s & m & st' & R); [lia| |auto|]. { intros H. apply in_app_or in H. destruct H as [H|[H|[]]]; auto. }
      exists b, s, m, st'. etransitivity; [|exact R]. rewrite <- !app_assoc. cbn [app]. rewrite !app_length. cbn [length]. replace (length done + (length cur + 1)) with (length done + length cur + 1) by lia. reflexivity.
Qed.
Lemma trims : forall l out, exists r, foldM (fun is out => r <- RemoveBeginning is [" "] ;; Some (out ++ [r])) l out = Some (out ++ r) /\ Forall2 (trimmed (fun c => In c [" "])) l r.
Proof.
  induction l as [|x l IH]; intros out; cbn [foldM]; [exists []; rewrite app_nil_r; auto|]. destruct (RemoveBeginning_ok x [" "]) as (r & E & T). rewrite E. cbn [bind].
  destruct (IH (out ++ [r])) as (rs & E2 & F). exists (r :: rs). rewrite E2, <- app_assoc. auto.
Qed.
Lemma XML_ok : forall aStr s junk, ~ In "000" s -> exists ps out, xml_pieces s ps /\ XML_SeparateTagContent aStr (s ++ "000" :: junk) = Some out /\ Forall2 (trimmed (fun c => In c [" "])) (aStr ++ ps) out.
Proof.
  intros aStr s junk N. exists (xpf true [] s). unfold XML_SeparateTagContent.
  match goal with |- context [loopf _ ?f _] => change f with xbody end.
  destruct (xloop junk s (S (length (s ++ "000" :: junk))) [] [] true aStr) as (b & i & m & st' & R); [rewrite app_length; lia|intros []|auto|]. cbn [app length Nat.add] in R.
  match type of R with ?x = _ => match goal with |- context [loopf ?a ?b ?c] => change (loopf a b c) with x end end. rewrite R. cbn [bind].
  destruct (trims (aStr ++ xpf true [] s) []) as (r & E & F). rewrite E. cbn [bind app]. exists r. split; auto. apply (xpf_pieces s []). intros [].
Qed.
