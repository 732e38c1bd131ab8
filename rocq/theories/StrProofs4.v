(** Dictionaries. *)
From Coq Require Import List Arith ZArith Bool Ascii Lia.
Import ListNotations.
From Verif Require Import Imp StrModel StrSpec StrProofs1 StrProofs2 StrProofs3.
Open Scope char_scope. Open Scope nat_scope.

Ltac flat := repeat (rewrite <- app_assoc; cbn [app]); reflexivity.
Ltac len := repeat (first [rewrite app_length | progress cbn [length]]); lia.
Definition jbody (dbg : bool) (buff : text) := fun i (s : smap * nat * option nat) =>
    let '(res, ipos_begin, ipos_middle) := s in
    c <- vget buff i ;; p <- vget buff (i - 1) ;;
    let ipos_middle := if Ascii.eqb c ":" && Ascii.eqb p dquote then Some i else ipos_middle in
    if (Ascii.eqb c "," && Ascii.eqb p dquote) || (i =? length buff - 1) then
      let ipos_end := i in
      m <- ipos_middle ;;
      (if dbg then
        a <- at0 buff ipos_begin ;; assertb (Ascii.eqb a dquote) ;;;
        b <- at0 buff (m + 1) ;; assertb (Ascii.eqb b dquote) ;;;
        d <- at0 buff (m - 1) ;; assertb (Ascii.eqb d dquote) ;;;
        e <- at0 buff (ipos_end - 1) ;; assertb (Ascii.eqb e dquote)
       else Some tt) ;;;
      key <- substr buff (ipos_begin + 1) (m - 1) ;;
      val <- substr buff (m + 2) (ipos_end - 1) ;;
      Some (minsert res key val, ipos_end + 1, ipos_middle)
    else Some (res, ipos_begin, ipos_middle).

(** a stretch of text in which nothing happens *)
Fixpoint calm (p : ascii) (l : text) : Prop :=
  match l with [] => True | c :: l => (p = dquote -> c <> "," /\ c <> ":") /\ calm c l end.
Lemma jquiet : forall dbg buff l x pre post st, buff = pre ++ x :: l ++ post -> post <> [] -> calm x l -> forn_ (length l) (S (length pre)) (jbody dbg buff) st = Some st.
Proof.
  intros dbg buff. induction l as [|c l IH]; intros x pre post ((res, b), m) E NE C; cbn [length forn_]; auto. destruct C as (C1 & C2). unfold jbody at 1.
  assert (G : vget buff (S (length pre)) = Some c) by (rewrite E, (snoc_len pre x), snoc_mid; cbn [app]; apply vget_mid). rewrite G. cbn [bind].
  replace (S (length pre) - 1) with (length pre) by lia. rewrite E at 1. rewrite vget_mid. cbn [bind].
  assert (L : S (length pre) < length buff - 1). { rewrite E, app_length. cbn [length app]. rewrite app_length. destruct post; [congruence|]. cbn [length]. lia. }
  rewrite (proj2 (Nat.eqb_neq _ _)) by lia. rewrite orb_false_r.
  replace (Ascii.eqb c "," && Ascii.eqb x dquote) with false. 2:{ destruct (Ascii.eqb_spec x dquote) as [->|]; [|rewrite andb_false_r; auto]. destruct (C1 eq_refl) as (A & _). destruct (Ascii.eqb_spec c ","); [congruence|auto]. }
  replace (Ascii.eqb c ":" && Ascii.eqb x dquote) with false. 2:{ destruct (Ascii.eqb_spec x dquote) as [->|]; [|rewrite andb_false_r; auto]. destruct (C1 eq_refl) as (_ & A). destruct (Ascii.eqb_spec c ":"); [congruence|auto]. }
  cbn [bind]. rewrite (snoc_len pre x). apply (IH c (pre ++ [x]) post); auto. rewrite E, <- app_assoc. auto.
Qed.
Lemma calm_app : forall a p b, calm p (a ++ b) <-> calm p a /\ calm (last a p) b.
Proof.
  induction a as [|c a IH]; intros p b; cbn [app calm]; [cbn; tauto|]. rewrite IH. assert (X : last (c :: a) p = last a c) by (clear; destruct a as [|d a]; auto; cbn [last]; revert d; induction a; intros; auto; apply IHa). rewrite X. tauto.
Qed.
Lemma calm_in : forall l, ~ In dquote l -> calm "x" l.
Proof.
  assert (G : forall l p, p <> dquote -> ~ In dquote l -> calm p l). { induction l as [|c l IH]; intros p P N; cbn [calm]; auto. split; [congruence|]. apply IH; [intros ->; apply N; left; auto|intros ?; apply N; right; auto]. }
  intros; apply G; auto. discriminate.
Qed.
Definition good (l : text) : Prop := ~ In dquote l /\ match l with [] => True | c :: _ => c <> "," /\ c <> ":" end.
Lemma calm_good : forall l, good l -> calm dquote (l ++ [dquote]).
Proof.
  intros l (N & H). destruct l as [|c l]; [cbn; split; auto; intros; split; discriminate|]. cbn [app calm]. split; auto.
  assert (G : forall l p, p <> dquote -> ~ In dquote l -> calm p (l ++ [dquote])). { induction l0 as [|a l0 IH]; intros p P M; cbn [app calm]; [split; auto; congruence|]. split; [congruence|]. apply IH; [intros ->; apply M; left; auto|intros ?; apply M; right; auto]. }
  apply G; [intros ->; apply N; left; auto|intros ?; apply N; right; auto].
Qed.
Lemma at0_vget : forall s i c, vget s i = Some c -> at0 s i = Some c.
Proof. intros s i c H. unfold at0. destruct (Nat.eqb_spec i (length s)) as [->|]; auto. unfold vget in H. assert (X := nth_error_None s (length s)). rewrite (proj2 X) in H by lia. discriminate. Qed.
Lemma vget_at : forall {T} (s a : list T) x b i, s = a ++ x :: b -> i = length a -> vget s i = Some x.
Proof. intros; subst. apply vget_mid. Qed.

(** one entry and the character after it *)
Lemma jentry : forall dbg buff x pre k v sep post res mid, buff = (pre ++ [x]) ++ json_entry (k, v) ++ sep :: post -> x <> dquote -> good k -> good v ->
  (sep = "," \/ (sep <> ":" /\ post = [])) ->
  exists mid', forn_ (S (length (json_entry (k, v)))) (S (length pre)) (jbody dbg buff) (res, S (length pre), mid) = Some (minsert res k v, S (length pre) + S (length (json_entry (k, v))), mid').
Proof.
  intros dbg buff x pre k v sep post res mid E X GK GV SEP.
  set (n := S (length pre)). assert (LP : length (pre ++ [x]) = n) by (unfold n; len). assert (LN : n = length pre + 1) by (unfold n; lia).
  assert (LE : length (json_entry (k, v)) = 1 + (length k + 1) + 1 + (1 + (length v + 1))) by (unfold json_entry; cbn [length]; rewrite app_length; cbn [length]; rewrite app_length; cbn [length]; lia).
  assert (LB : length buff = n + length (json_entry (k, v)) + S (length post)) by (rewrite E, app_length, LP, app_length; cbn [length]; lia).
  rewrite LE. replace (S (1 + (length k + 1) + 1 + (1 + (length v + 1)))) with ((1 + (length k + 1)) + (1 + ((1 + (length v + 1)) + 1))) by lia.
  unfold json_entry in E.
  (* opening quote, key, quote *)
  rewrite forn_split.
  assert (Q1 : forn_ (1 + (length k + 1)) n (jbody dbg buff) (res, n, mid) = Some (res, n, mid)).
  { replace (1 + (length k + 1)) with (length (dquote :: k ++ [dquote])) by (cbn [length]; rewrite app_length; cbn; lia). unfold n.
    apply (jquiet dbg buff (dquote :: k ++ [dquote]) x pre (":" :: dquote :: v ++ [dquote] ++ sep :: post)); [|discriminate|].
    - rewrite E. rewrite <- !app_assoc. cbn [app]. f_equal. f_equal. f_equal. rewrite <- !app_assoc. cbn [app]. f_equal. f_equal. f_equal. f_equal. rewrite <- app_assoc. auto.
    - cbn [calm]. split; [congruence|]. apply calm_good; auto. }
  rewrite Q1. cbn [bind]. rewrite forn_split. set (m := n + (1 + (length k + 1))).
  (* the colon *)
  assert (Vm : vget buff m = Some ":"). { apply (vget_at buff ((pre ++ [x]) ++ dquote :: k ++ [dquote]) ":" (dquote :: v ++ [dquote] ++ sep :: post)); [|unfold m; len]. rewrite E. rewrite <- !app_assoc. cbn [app]. do 3 f_equal. rewrite <- !app_assoc. cbn [app]. do 4 f_equal. rewrite <- app_assoc. auto. }
  assert (Vm1 : vget buff (m - 1) = Some dquote). { apply (vget_at buff ((pre ++ [x]) ++ dquote :: k) dquote (":" :: dquote :: v ++ [dquote] ++ sep :: post)); [|unfold m; len]. rewrite E. rewrite <- !app_assoc. cbn [app]. do 3 f_equal. rewrite <- !app_assoc. cbn [app]. do 4 f_equal. rewrite <- app_assoc. auto. }
  assert (Vp1 : vget buff (m + 1) = Some dquote). { apply (vget_at buff ((pre ++ [x]) ++ dquote :: k ++ dquote :: [":"]) dquote (v ++ [dquote] ++ sep :: post)); [|unfold m; len]. rewrite E. rewrite <- !app_assoc. cbn [app]. do 3 f_equal. rewrite <- !app_assoc. cbn [app]. do 4 f_equal. rewrite <- app_assoc. auto. }
  assert (Vn : vget buff n = Some dquote). { apply (vget_at buff (pre ++ [x]) dquote (k ++ dquote :: ":" :: dquote :: v ++ [dquote] ++ sep :: post)); [|auto]. rewrite E. cbn [app]. f_equal. f_equal. rewrite <- !app_assoc. cbn [app]. do 4 f_equal. rewrite <- app_assoc. auto. }
  set (e := m + 1 + (1 + (length v + 1))).
  assert (Ve : vget buff e = Some sep). { apply (vget_at buff ((pre ++ [x]) ++ (dquote :: k ++ dquote :: ":" :: dquote :: v ++ [dquote])) sep post); [rewrite E, <- !app_assoc; reflexivity|]. unfold e, m. len. }
  assert (Ve1 : vget buff (e - 1) = Some dquote). { apply (vget_at buff ((pre ++ [x]) ++ (dquote :: k ++ dquote :: ":" :: dquote :: v)) dquote (sep :: post)). - rewrite E, <- !app_assoc. cbn [app]. do 3 f_equal. rewrite <- !app_assoc. cbn [app]. do 4 f_equal. rewrite <- app_assoc. auto. - unfold e, m. len. }
  assert (Q2 : forn_ 1 m (jbody dbg buff) (res, n, mid) = Some (res, n, Some m)).
  { cbn [forn_]. unfold jbody. rewrite Vm, Vm1. cbn [bind]. rewrite (proj2 (Nat.eqb_neq _ _)) by (unfold m; lia). reflexivity. }
  rewrite Q2. cbn [bind]. rewrite forn_split.
  assert (Q3 : forn_ (1 + (length v + 1)) (m + 1) (jbody dbg buff) (res, n, Some m) = Some (res, n, Some m)).
  { replace (1 + (length v + 1)) with (length (dquote :: v ++ [dquote])) by (cbn [length]; rewrite app_length; cbn; lia). set (pre2 := (pre ++ [x]) ++ dquote :: k ++ [dquote]).
    replace (m + 1) with (S (length pre2)) by (unfold pre2, m; len).
    apply (jquiet dbg buff (dquote :: v ++ [dquote]) ":" pre2 (sep :: post)); [|discriminate|].
    - rewrite E. unfold pre2. repeat (rewrite <- app_assoc; cbn [app]). reflexivity.
    - cbn [calm]. split; [discriminate|]. apply calm_good; auto. }
  rewrite Q3. cbn [bind forn_]. fold e. unfold jbody. rewrite Ve, Ve1. cbn [bind].
  assert (T1 : Ascii.eqb sep ":" && Ascii.eqb dquote dquote = false) by (destruct SEP as [->|(NS & _)]; [reflexivity|]; destruct (Ascii.eqb_spec sep ":"); [congruence|reflexivity]).
  assert (T2 : Ascii.eqb sep "," && Ascii.eqb dquote dquote || (e =? length buff - 1) = true).
  { destruct SEP as [->|(_ & ->)]; [reflexivity|]. rewrite (proj2 (Nat.eqb_eq _ _)); [apply orb_true_r|]. rewrite LB, LE. cbn [length]. unfold e, m. lia. }
  rewrite T1, T2. cbn [bind]. rewrite (at0_vget _ _ _ Vn), (at0_vget _ _ _ Vp1), (at0_vget _ _ _ Vm1), (at0_vget _ _ _ Ve1).
  assert (K : substr buff (n + 1) (m - 1) = Some k).
  { replace (n + 1) with (length ((pre ++ [x]) ++ [dquote])) by (len). replace (m - 1) with (length ((pre ++ [x]) ++ [dquote]) + length k) by (unfold m; len).
    rewrite E. replace ((pre ++ [x]) ++ (dquote :: k ++ dquote :: ":" :: dquote :: v ++ [dquote]) ++ sep :: post) with (((pre ++ [x]) ++ [dquote]) ++ k ++ (dquote :: ":" :: dquote :: v ++ [dquote]) ++ sep :: post); [apply substr_mid|]. flat. }
  assert (W : substr buff (m + 2) (e - 1) = Some v).
  { set (pre2 := (pre ++ [x]) ++ dquote :: k ++ [dquote; ":"; dquote]). assert (L2 : length pre2 = m + 2) by (unfold pre2, m; len). rewrite <- L2. replace (e - 1) with (length pre2 + length v) by (rewrite L2; unfold e; lia).
    rewrite E. replace ((pre ++ [x]) ++ (dquote :: k ++ dquote :: ":" :: dquote :: v ++ [dquote]) ++ sep :: post) with (pre2 ++ v ++ dquote :: sep :: post); [apply substr_mid|]. unfold pre2. flat. }
  exists (Some m). rewrite K, W. replace (n + (1 + (length k + 1) + (1 + (1 + (length v + 1) + 1)))) with (e + 1) by (unfold e, m; lia).
  destruct dbg; cbn [bind assertb]; change (Ascii.eqb dquote dquote) with true; cbn; reflexivity.
Qed.
Lemma json_len : forall kv, length (json_entry kv) <> 0. Proof. intros (k, v). cbn. lia. Qed.
Lemma jloop : forall dbg L buff x pre res mid, L <> [] -> buff = (pre ++ [x]) ++ join "," (map json_entry L) ++ ["}"] -> x <> dquote -> (forall k v, In (k, v) L -> good k /\ good v) ->
  exists b mid', forn_ (length (join "," (map json_entry L)) + 1) (S (length pre)) (jbody dbg buff) (res, S (length pre), mid) = Some (inserts res L, b, mid').
Proof.
  intros dbg L buff. induction L as [|(k, v) L IH]; intros x pre res mid NE E X G; [congruence|]. destruct (G k v (or_introl eq_refl)) as (GK & GV). destruct L as [|kv2 L].
  - cbn [map join inserts] in *. destruct (jentry dbg buff x pre k v "}" [] res mid E X GK GV) as (mid' & R); [right; split; [discriminate|auto]|]. rewrite Nat.add_1_r. rewrite R. eauto.
  - cbn [map] in *. rewrite join_cons in * by discriminate. set (rest := join "," (json_entry kv2 :: map json_entry L)) in *.
    assert (E2 : buff = (pre ++ [x]) ++ json_entry (k, v) ++ "," :: rest ++ ["}"]) by (rewrite E, <- !app_assoc; auto).
    destruct (jentry dbg buff x pre k v "," (rest ++ ["}"]) res mid E2 X GK GV (or_introl eq_refl)) as (mid1 & R).
    assert (LL : length (json_entry (k, v) ++ "," :: rest) + 1 = S (length (json_entry (k, v))) + (length rest + 1)) by (rewrite app_length; cbn [length]; lia). rewrite LL.
    rewrite forn_split, R. cbn [bind inserts]. set (pre2 := (pre ++ [x]) ++ json_entry (k, v)).
    replace (S (length pre) + S (length (json_entry (k, v)))) with (S (length pre2)) by (unfold pre2; rewrite !app_length; cbn [length]; lia).
    apply (IH "," pre2); [discriminate| |discriminate|intros; apply G; right; auto]. unfold pre2. rewrite E2. rewrite <- !app_assoc. auto.
Qed.
Lemma Json_ok : forall dbg s L, L <> [] -> filter (fun c => negb (Ascii.eqb c " ")) s = json_text L -> (forall k v, In (k, v) L -> good k /\ good v) ->
  exists r, ReadDictionary_Json dbg s = Some r /\ forall k, mfind r k = first_value L k.
Proof.
  intros dbg s L NE E G. exists (inserts [] L). split; [|intros; rewrite inserts_find; auto]. unfold ReadDictionary_Json. rewrite RemoveSpace_ok, E. cbn [bind].
  destruct L as [|(k, v) L]; [congruence|]. assert (S2 : exists r, json_text ((k, v) :: L) = "{" :: dquote :: r). { unfold json_text. cbn [map]. destruct (map json_entry L) eqn:ML; [|rewrite join_cons by discriminate]; eexists; cbn; reflexivity. }
  destruct S2 as (r & S2). assert (A0 : at0 (json_text ((k, v) :: L)) 0 = Some "{") by (rewrite S2; reflexivity). assert (A1 : at0 (json_text ((k, v) :: L)) 1 = Some dquote) by (rewrite S2; reflexivity).
  rewrite A0, A1. cbn [bind]. rewrite orb_true_r. cbn [bind assertb].
  match goal with |- context [forn _ _ ?f _] => change f with (jbody dbg (json_text ((k, v) :: L))) end.
  destruct (jloop dbg ((k, v) :: L) (json_text ((k, v) :: L)) "{" [] [] None) as (b & mid & R); [discriminate|reflexivity|discriminate|auto|]. unfold forn.
  replace (length (json_text ((k, v) :: L)) - 1) with (length (join "," (map json_entry ((k, v) :: L))) + 1) by (unfold json_text; cbn [length]; rewrite app_length; cbn [length]; lia).
  cbn [length] in R. match type of R with ?x = _ => match goal with |- context [forn_ ?a ?b ?c ?d] => change (forn_ a b c d) with x end end.
  rewrite R. destruct dbg; reflexivity.
Qed.
