(** States reached by calls; evaluation. *)
From Coq Require Import List Arith ZArith Bool Ascii Lia.
Import ListNotations.
From Verif Require Import Imp PexpModel PexpSpec PexpProofs1 PexpProofs2 PexpProofs3.
Open Scope char_scope. Open Scope nat_scope.

Section R.
Variable A : arith.
Notation ckey := (ckey A). Notation cmd := (cmd A).
Notation pairs := (map (fun k : ckey => (m_Name k, m_Val k))).

Definition operand (cmds : list cmd) (i : nat) : Prop := exists v, nth_error cmds i = Some (COperand v).
Definition Inv (st : evaluator A) : Prop :=
  NoDup (map m_Name (m_aKey st)) /\ forall k, In k (m_aKey st) -> forall i, In i (m_aiCmd k) -> operand (m_apCmd st) i.

Lemma nth_error_upd : forall {T} (v : list T) i x j, i < length v -> nth_error (upd v i x) j = if Nat.eq_dec i j then Some x else nth_error v j.
Proof.
  induction v as [|a v IH]; intros [|i] x [|j] H; cbn [length] in H; try lia; cbn [upd nth_error]; auto.
  rewrite IH by lia. destruct (Nat.eq_dec i j), (Nat.eq_dec (S i) (S j)); auto; lia.
Qed.
Lemma vset_inv : forall {T} (v w : list T) i x, vset v i x = Some w -> i < length v /\ w = upd v i x.
Proof.
  induction v as [|a v IH]; intros w [|i] x H; cbn [vset] in H; try discriminate.
  - injection H as <-. cbn [length upd]. split; [lia|auto].
  - destruct (vset v i x) as [u|] eqn:E; [|discriminate]. cbn [bind] in H. injection H as <-. destruct (IH _ _ _ E) as (L & ->). cbn [length upd]. split; [lia|auto].
Qed.
Lemma set_cmds_operand : forall dbg val idx cmds cmds', set_cmds A dbg idx val cmds = Some cmds' -> forall i, operand cmds i -> operand cmds' i.
Proof.
  intros dbg val. induction idx as [|j idx IH]; intros cmds cmds' E i H; unfold set_cmds in E; cbn [foldM] in E.
  - injection E as <-. auto.
  - destruct (vget cmds j) as [c|] eqn:Ec; [|discriminate]. cbn [bind] in E. destruct (SetValue A dbg c val) as [c'|] eqn:Es; [|discriminate]. cbn [bind] in E.
    destruct (vset cmds j c') as [w|] eqn:Ew; [|discriminate]. cbn [bind] in E. apply vset_inv in Ew. destruct Ew as (L & ->). apply (IH _ _ E).
    destruct H as (v & H). unfold operand. rewrite nth_error_upd by auto. destruct (Nat.eq_dec j i) as [->|]; eauto. unfold vget in Ec. rewrite H in Ec. injection Ec as <-. cbn in Es. injection Es as <-. eauto.
Qed.
Lemma use_key_inv : forall keys name i keys', use_key A keys name i = Some keys' ->
  pairs keys' = pairs keys /\ forall k', In k' keys' -> forall j, In j (m_aiCmd k') -> j = i \/ exists k, In k keys /\ In j (m_aiCmd k).
Proof.
  induction keys as [|k keys IH]; intros name i keys' E; cbn [use_key] in E; [discriminate|]. destruct (text_eqb (m_Name k) name).
  - injection E as <-. split; auto. intros k' [<-|H] j Hj; cbn [m_aiCmd] in *.
    + apply in_app_or in Hj. destruct Hj as [Hj|[<-|[]]]; auto. right. exists k. split; auto. left; auto.
    + right. exists k'. split; auto. right; auto.
  - destruct (use_key A keys name i) as [w|] eqn:Ew; [|discriminate]. cbn [bind] in E. injection E as <-. destruct (IH _ _ _ Ew) as (P & Q). split; [cbn [map]; rewrite P; auto|].
    intros k' [<-|H] j Hj; [right; exists k; split; auto; left; auto|]. destruct (Q k' H j Hj) as [|(k0 & I & J)]; auto. right. exists k0. split; auto. right; auto.
Qed.
Lemma MakeCmdAry_inv : forall dbg K vec b cmds keys, (forall k, In k K -> m_aiCmd k = []) -> MakeCmdAry A dbg K vec = Some (b, cmds, keys) ->
  pairs keys = pairs K /\ forall k, In k keys -> forall i, In i (m_aiCmd k) -> operand cmds i.
Proof.
  intros dbg K vec b cmds keys EK E. rewrite MakeCmdAry_eq in E. unfold forb in E.
  set (P := fun s : bool * list cmd * list ckey => pairs (snd s) = pairs K /\ forall k, In k (snd s) -> forall i, In i (m_aiCmd k) -> operand (snd (fst s)) i).
  change (P (b, cmds, keys)).
  refine (forb_inv (mc_step A dbg vec) (fun i s => P s /\ forall k, In k (snd s) -> forall j, In j (m_aiCmd k) -> j < i) P _ _ _ _ _ _ _ E).
  - intros i ((b0, cs), ks) ((b1, cs'), ks') stop Hi ((HP1 & HP2) & HL) St. cbn [fst snd] in *. unfold mc_step in St. destruct (vget vec i) as [c|]; [|discriminate]. cbn [bind] in St.
    assert (GO : forall d w, vset cs i d = Some w -> ks' = ks -> cs' = w -> stop = false -> if stop then P (b1, cs', ks') else P (b1, cs', ks') /\ (forall k, In k ks' -> forall j, In j (m_aiCmd k) -> j < S i)).
    { intros d w Ew -> -> ->. apply vset_inv in Ew. destruct Ew as (L & ->). split; [split; auto; cbn [fst snd]|].
      - intros k Hk j Hj. unfold operand. rewrite nth_error_upd by auto. assert (j < i) by eauto. destruct (Nat.eq_dec i j); [lia|]. apply (HP2 k Hk j Hj).
      - intros k Hk j Hj. assert (j < i) by eauto. lia. }
    destruct (iOpeType c =? 0).
    { destruct (vset cs i _) as [w|] eqn:Ew; [|discriminate]. cbn [bind] in St. injection St as <- <- <- <-. eapply GO; eauto. }
    destruct (iOpeType c =? 1).
    { destruct (iOpe c) as [o|].
      - destruct (assertb _); [|discriminate]. cbn [bind] in St. destruct (vset cs i _) as [w|] eqn:Ew; [|discriminate]. cbn [bind] in St. injection St as <- <- <- <-. eapply GO; eauto.
      - destruct (use_key A ks (sOpe c) i) as [ks2|] eqn:Eu.
        + destruct (vset cs i _) as [w|] eqn:Ew; [|discriminate]. cbn [bind] in St. injection St as <- <- <- <-. apply vset_inv in Ew. destruct Ew as (L & ->).
          destruct (use_key_inv _ _ _ _ Eu) as (U1 & U2). split; [split; cbn [fst snd]|].
          * rewrite U1. auto.
          * intros k Hk j Hj. unfold operand. rewrite nth_error_upd by auto. destruct (Nat.eq_dec i j); [eauto|]. destruct (U2 k Hk j Hj) as [->|(k0 & I & J)]; [congruence|]. apply (HP2 k0 I j J).
          * intros k Hk j Hj. destruct (U2 k Hk j Hj) as [->|(k0 & I & J)]; [lia|]. assert (j < i) by eauto. lia.
        + injection St as <- <- <- <-. split; auto. }
    destruct (iOpeType c =? 2).
    { destruct (iOpe c) as [o|]; [|discriminate]. cbn [bind] in St. destruct (vset cs i _) as [w|] eqn:Ew; [|discriminate]. cbn [bind] in St. injection St as <- <- <- <-. eapply GO; eauto. }
    destruct (iOpeType c =? 3).
    { destruct (iOpe c) as [o|]; [|discriminate]. cbn [bind] in St. destruct (vset cs i _) as [w|] eqn:Ew; [|discriminate]. cbn [bind] in St. injection St as <- <- <- <-. eapply GO; eauto. }
    destruct (assertb _); [|discriminate]. cbn [bind] in St. injection St as <- <- <- <-. split; [split; auto|]. intros k Hk j Hj. assert (j < i) by eauto. lia.
  - split; [split; auto; cbn [fst snd]|cbn [snd]]; intros k Hk i Hi; rewrite EK in Hi by auto; destruct Hi.
  - intros t H. apply H.
Qed.
Lemma SetExp_inv : forall dbg st t b st', Inv st -> SetExp A dbg st t = Some (b, st') -> Inv st' /\ pairs (m_aKey st') = pairs (m_aKey st).
Proof.
  intros dbg st t b st' (ND & _) E. unfold SetExp in E. set (K0 := map (fun k : ckey => CKey (m_Name k) [] (m_Val k)) (m_aKey st)) in *.
  assert (PK : pairs K0 = pairs (m_aKey st)) by (unfold K0; rewrite map_map; auto).
  assert (EK : forall k, In k K0 -> m_aiCmd k = []) by (intros k Hk; apply in_map_iff in Hk; destruct Hk as (k0 & <- & _); auto).
  assert (GO : forall K cs v, pairs K = pairs K0 -> (forall k, In k K -> forall i, In i (m_aiCmd k) -> operand cs i) -> Inv (Ev v cs K) /\ pairs K = pairs (m_aKey st)).
  { intros K cs v P O. split; [|congruence]. split; cbn [m_aKey m_apCmd]; auto. rewrite (names_pairs A K (m_aKey st)) by congruence. auto. }
  assert (NIL : forall k, In k K0 -> forall i, In i (m_aiCmd k) -> operand [] i) by (intros k Hk i Hi; rewrite EK in Hi by auto; destruct Hi).
  destruct (RemoveExpressionSpaceNewline t) as [t1|]; [|discriminate]. cbn [bind] in E. destruct (RemoveExpressionBracket _ t1) as [t2|]; [|discriminate]. cbn [bind] in E.
  destruct (length t2 =? 0). { injection E as <- <-. apply GO; auto. }
  destruct (MakeRPN _ _ _ _) as [(ok, vec)|]; [|discriminate]. cbn [bind] in E. destruct (negb ok). { injection E as <- <-. apply GO; auto. }
  destruct (MakeCmdAry A dbg K0 vec) as [((ok2, cs), ks)|] eqn:EM; [|discriminate]. cbn [bind] in E. destruct (MakeCmdAry_inv _ _ _ _ _ _ EK EM) as (P & O).
  destruct (negb ok2). { injection E as <- <-. apply GO; auto. }
  match type of E with context [foldM ?f ks cs] => destruct (foldM f ks cs) as [cs2|] eqn:EF; [|discriminate] end. cbn [bind] in E. injection E as <- <-. apply GO; auto.
  intros k Hk i Hi. assert (H := O k Hk i Hi). clear - EF H. revert cs H EF. generalize ks as L. induction L as [|k0 L IH]; intros cs H EF; cbn [foldM] in EF; [injection EF as <-; auto|].
  destruct (set_cmds A dbg (m_aiCmd k0) (m_Val k0) cs) as [w|] eqn:Ew; [|discriminate]. cbn [bind] in EF. apply (IH w); auto. eapply set_cmds_operand; eauto.
Qed.

(** SetKey *)
Lemma SetKey_keys_cases : forall dbg x v cmds keys pre,
  (lk A keys x = None /\ SetKey_keys A dbg pre keys cmds x v = Some (pre ++ keys ++ [CKey x [] v], cmds)) \/
  exists K1 k K2, keys = K1 ++ k :: K2 /\ m_Name k = x /\ ~ In x (map m_Name K1) /\
    SetKey_keys A dbg pre keys cmds x v = (c <- set_cmds A dbg (m_aiCmd k) v cmds ;; Some (pre ++ K1 ++ CKey x (m_aiCmd k) v :: K2, c)).
Proof.
  intros dbg x v cmds. induction keys as [|k keys IH]; intros pre; cbn [lk SetKey_keys].
  - left. auto.
  - destruct (text_eqb_spec (m_Name k) x) as [E|E], (list_eq_dec ascii_dec (m_Name k) x) as [E'|E']; try congruence.
    + right. exists [], k, keys. cbn [app map In]. rewrite E. auto.
    + destruct (IH (pre ++ [k])) as [(L & R)|(K1 & k0 & K2 & E1 & E2 & E3 & R)].
      * left. rewrite R, <- app_assoc. auto.
      * right. exists (k :: K1), k0, K2. subst keys. cbn [app map In]. split; auto. split; auto. split; [intros [|]; auto|]. rewrite R, <- app_assoc. auto.
Qed.
Lemma lk_app : forall K K' x, lk A (K ++ K') x = match lk A K x with Some v => Some v | None => lk A K' x end.
Proof. induction K as [|k K IH]; intros; cbn [app lk]; auto. destruct (list_eq_dec _ _ _); auto. Qed.
Lemma lk_notin : forall K x, ~ In x (map m_Name K) -> lk A K x = None.
Proof. intros K x H. destruct (lk A K x) eqn:E; auto. exfalso. apply H, lk_in. congruence. Qed.

Lemma NoDup_snoc : forall {T} (l : list T) x, NoDup l -> ~ In x l -> NoDup (l ++ [x]).
Proof. intros T l x H N. apply NoDup_rev in H. rewrite <- (rev_involutive (l ++ [x])). apply NoDup_rev. rewrite rev_app_distr. cbn. constructor; auto. rewrite <- in_rev. auto. Qed.

Lemma SetKey_inv : forall dbg st x v, Inv st -> exists st', SetKey A dbg st x v = Some st' /\ Inv st' /\
  m_is_valid st' = m_is_valid st /\ (forall y, lk A (m_aKey st') y = if list_eq_dec ascii_dec x y then Some v else lk A (m_aKey st) y) /\
  (forall vec, rep A vec st -> rep A vec st').
Proof.
  intros dbg [ok cmds keys] x v (ND & OP). cbn [m_aKey m_apCmd] in *. unfold SetKey. cbn [m_aKey m_apCmd m_is_valid].
  destruct (SetKey_keys_cases dbg x v cmds keys []) as [(L & E)|(K1 & k & K2 & E1 & E2 & E3 & E)]; rewrite E; cbn [app bind].
  - assert (NI : ~ In x (map m_Name keys)) by (rewrite lk_in; auto). eexists. split; [reflexivity|]. cbn [m_is_valid m_aKey m_apCmd].
    assert (LK : forall y, lk A (keys ++ [CKey x [] v]) y = if list_eq_dec ascii_dec x y then Some v else lk A keys y).
    { intros y. rewrite lk_app. cbn [lk m_Name m_Val]. destruct (list_eq_dec ascii_dec x y) as [<-|]; [rewrite L; auto|]. destruct (lk A keys y); auto. }
    split; [split; cbn [m_aKey m_apCmd]|split; [auto|split; [exact LK|]]].
    + rewrite map_app. apply NoDup_snoc; auto.
    + intros k Hk i Hi. apply in_app_or in Hk. destruct Hk as [Hk|[<-|[]]]; [eauto|destruct Hi].
    + intros vec (R1 & R2 & R3 & R4 & R5). cbn [m_is_valid m_aKey m_apCmd] in *. unfold rep. cbn [m_is_valid m_aKey m_apCmd]. split; auto. rewrite map_app.
      split; [apply NoDup_snoc; auto|]. split; [intros y Hy; apply in_or_app; auto|]. split.
      * rewrite map_app. rewrite <- R4. f_equal. cbn [map]. f_equal. unfold kat. cbn [m_Name m_Val]. f_equal.
        destruct (uses vec (length vec) x) as [|p l] eqn:U; auto. exfalso. assert (I : In p (uses vec (length vec) x)) by (rewrite U; left; auto). apply uses_spec in I. destruct I as (Lp & I).
        apply NI, R3. unfold varnames. apply in_flat_map. exists (nth p vec compo0). split; [apply nth_In; auto|]. unfold isvar in I. apply andb_true_iff in I. destruct I as (I & J). rewrite I.
        destruct (text_eqb_spec (sOpe (nth p vec compo0)) x); [left; auto|discriminate].
      * rewrite R5. apply cmdof_ext. intros y Hy. unfold kenv. rewrite LK. destruct (list_eq_dec ascii_dec x y) as [<-|]; auto. exfalso. apply NI, R3, Hy.
  - subst keys. destruct (set_cmds_gen A dbg v (m_aiCmd k) cmds) as (c & Ec & Lc & Nc); [intros i Hi; apply (OP k); auto; apply in_or_app; right; left; auto|].
    rewrite Ec. cbn [bind]. eexists. split; [reflexivity|]. cbn [m_is_valid m_aKey m_apCmd].
    assert (LK : forall y, lk A (K1 ++ CKey x (m_aiCmd k) v :: K2) y = if list_eq_dec ascii_dec x y then Some v else lk A (K1 ++ k :: K2) y).
    { intros y. rewrite !lk_app. cbn [lk m_Name m_Val]. rewrite E2. destruct (list_eq_dec ascii_dec x y) as [<-|]; auto. rewrite lk_notin by auto. auto. }
    assert (NM : map m_Name (K1 ++ CKey x (m_aiCmd k) v :: K2) = map m_Name (K1 ++ k :: K2)) by (rewrite !map_app; cbn [map m_Name]; rewrite E2; auto).
    split; [split; cbn [m_aKey m_apCmd]; [rewrite NM; auto|]|split; [auto|split; [exact LK|]]].
    + intros k' Hk i Hi. assert (O : operand cmds i).
      { apply in_app_or in Hk. destruct Hk as [Hk|[<-|Hk]]; [apply (OP k')|apply (OP k)|apply (OP k')]; auto; apply in_or_app; cbn; auto. }
      unfold operand. rewrite Nc. destruct (in_dec _ _ _); eauto.
    + intros vec (R1 & R2 & R3 & R4 & R5). cbn [m_is_valid m_aKey m_apCmd] in *. unfold rep. cbn [m_is_valid m_aKey m_apCmd]. rewrite NM. split; auto. split; auto. split; auto.
      rewrite map_app in R4. cbn [map] in R4. assert (LQ : length K1 = length (map (kat A vec (length vec)) K1)) by (rewrite map_length; auto).
      assert (SP : K1 = map (kat A vec (length vec)) K1 /\ k :: K2 = kat A vec (length vec) k :: map (kat A vec (length vec)) K2).
      { clear - R4 LQ. revert LQ R4. generalize (map (kat A vec (length vec)) K1) as Z. induction K1 as [|a K1 IH]; intros [|b Z] LQ R4; try discriminate; auto. cbn [app] in R4. injection R4 as -> R4.
        destruct (IH Z) as (-> & H); [cbn in LQ; lia|auto|]. split; auto. }
      destruct SP as (S1 & S2). injection S2 as S2 S3. assert (AI : m_aiCmd k = uses vec (length vec) x) by (rewrite S2; cbn [m_aiCmd kat]; rewrite E2; auto). split.
      * rewrite map_app. cbn [map]. rewrite <- S1, <- S3. f_equal. f_equal. unfold kat. cbn [m_Name m_Val]. rewrite AI. auto.
      * rewrite R5, AI, set_cmds_env in Ec. injection Ec as <-. apply cmdof_ext. intros y Hy. unfold kenv, upde. rewrite LK.
        destruct (list_eq_dec ascii_dec y x) as [e1|N1], (list_eq_dec ascii_dec x y) as [e2|N2]; auto; congruence.
Qed.

(** sequences of calls *)
Lemma run_inv : forall dbg h st st', Inv st -> run dbg h st = Some st' ->
  Inv st' /\ forall y, lk A (m_aKey st') y = match last_value h y with Some v => Some v | None => lk A (m_aKey st) y end.
Proof.
  intros dbg. induction h as [|c h IH]; intros st st' I E; cbn [run last_value] in *.
  - injection E as <-. auto.
  - destruct c as [x v|t].
    + destruct (SetKey_inv dbg st x v I) as (s1 & E1 & I1 & _ & L1 & _). rewrite E1 in E. destruct (IH _ _ I1 E) as (I2 & L2). split; auto. intros y. rewrite L2, L1. destruct (last_value h y); auto.
      destruct (list_eq_dec ascii_dec x y); auto.
    + destruct (SetExp A dbg st t) as [(b, s1)|] eqn:E1; [|discriminate]. destruct (SetExp_inv _ _ _ _ _ I E1) as (I1 & P1). destruct (IH _ _ I1 E) as (I2 & L2). split; auto.
      intros y. rewrite L2. rewrite (lk_names A _ _ P1). destruct (last_value h y); auto.
Qed.
Lemma run_keys : forall dbg h st vec, only_keys h -> Inv st -> rep A vec st -> exists st', run dbg h st = Some st' /\ Inv st' /\ rep A vec st'.
Proof.
  intros dbg. induction h as [|c h IH]; intros st vec O I R; cbn [run]; [eauto|]. destruct (O c (or_introl eq_refl)) as (x & v & ->).
  destruct (SetKey_inv dbg st x v I) as (s1 & E1 & I1 & _ & _ & R1). rewrite E1. apply IH; auto. intros d Hd. apply O. right; auto.
Qed.
Lemma Inv0 : Inv (ev0 A).
Proof. split; cbn; [constructor|intros k []]. Qed.

(** evaluation *)
Lemma eval_rpn : forall dbg env e st, foldM (fun icmd stack => DoOperation A dbg icmd stack) (map (cmdof A env) (rpn e)) st = Some (value A env e :: st).
Proof.
  intros dbg env. induction e; intros st; cbn [rpn]; rewrite ?map_app, ?foldM_app.
  1,2,3: reflexivity.
  - rewrite IHe2. cbn [bind]. rewrite foldM_app, IHe1. cbn [bind map foldM]. unfold cmdof. cbn [iOpeType iOpe]. destruct o; cbn [op_ind DoOperation value].
    + rewrite v_add_comm. reflexivity.
    + reflexivity.
    + rewrite v_mul_comm. reflexivity.
    + destruct (v_small A (value A env e2)); reflexivity.
    + reflexivity.
  - rewrite IHe. cbn [bind map foldM]. unfold cmdof. cbn [iOpeType iOpe]. destruct f; cbn [fn_ind DoOperation value]; try destruct (v_pos A (value A env e)); reflexivity.
  - rewrite IHe. reflexivity.
  - rewrite IHe. reflexivity.
Qed.
Lemma value_ext : forall e1 e2 e, (forall x, In x (vars e) -> e1 x = e2 x) -> value A e1 e = value A e2 e.
Proof.
  intros e1 e2. induction e; intros H; cbn [value vars] in *; auto.
  - apply H; left; auto.
  - rewrite IHe1, IHe2 by (intros; apply H; apply in_or_app; auto). auto.
  - rewrite IHe by auto. auto.
  - rewrite IHe by auto. auto.
Qed.
Lemma rep_eval : forall dbg e st, rep A (rpn e) st -> Eval A dbg st = Some (value A (kenv A (m_aKey st)) e).
Proof. intros dbg e st (_ & _ & _ & _ & R). unfold Eval. rewrite R, eval_rpn. cbn [bind length rev app]. cbn [Nat.eqb]. rewrite orb_true_r. reflexivity. Qed.
Lemma rep_used : forall vec st x, rep A vec st -> IsKeyUsed A (m_aKey st) x = true <-> In x (varnames vec).
Proof.
  intros vec st x (_ & ND & R3 & R4 & _).
  assert (U : uses vec (length vec) x <> [] <-> In x (varnames vec)).
  { unfold varnames. rewrite in_flat_map. split.
    - intros H. destruct (uses vec (length vec) x) as [|p l] eqn:U; [congruence|]. assert (I : In p (uses vec (length vec) x)) by (rewrite U; left; auto). apply uses_spec in I. destruct I as (Lp & I).
      exists (nth p vec compo0). split; [apply nth_In; auto|]. unfold isvar in I. apply andb_true_iff in I. destruct I as (I & J). rewrite I. destruct (text_eqb_spec (sOpe (nth p vec compo0)) x); [left; auto|discriminate].
    - intros (c & Ic & Hx) E. destruct (In_nth _ _ compo0 Ic) as (p & Lp & Ep). destruct ((iOpeType c =? 1) && onat_eqb (iOpe c) None) eqn:B; [|destruct Hx]. destruct Hx as [<-|[]].
      assert (I : In p (uses vec (length vec) (sOpe c))) by (apply uses_spec; split; auto; unfold isvar; rewrite Ep, B; destruct (text_eqb_spec (sOpe c) (sOpe c)); auto). rewrite E in I. destruct I. }
  specialize (R3 x). rewrite <- U in *. clear ND U. revert R4 R3. generalize (m_aKey st) as K. intros K R4 R3. assert (AI : forall k, In k K -> m_aiCmd k = uses vec (length vec) (m_Name k)).
  { intros k Hk. rewrite R4 in Hk. apply in_map_iff in Hk. destruct Hk as (k0 & <- & _). auto. }
  clear R4. induction K as [|k K IH]; cbn [IsKeyUsed map In] in *; [split; [discriminate|intros H; destruct (R3 H)]|].
  destruct (text_eqb_spec (m_Name k) x) as [<-|N].
  - rewrite AI by auto. destruct (uses vec (length vec) (m_Name k)); cbn; split; auto; congruence.
  - apply IH; auto. intros H. destruct (R3 H); auto. contradiction.
Qed.
End R.
