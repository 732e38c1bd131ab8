(** Commands, keys and evaluation. *)
From Coq Require Import List Arith ZArith Bool Ascii Lia.
Import ListNotations.
From Verif Require Import Imp PexpModel PexpSpec PexpProofs1 PexpProofs2.
Open Scope char_scope. Open Scope nat_scope.

Definition nonblank (t : text) : text := filter (fun c => negb (blank c)) t.
Lemma upd_skip : forall {T} (v : list T) i x, i < length v -> upd v i x = firstn i v ++ x :: skipn (S i) v.
Proof. induction v as [|a v IH]; intros [|i] x H; cbn [length] in H; try lia; cbn [upd firstn skipn app]; auto. rewrite IH by lia. auto. Qed.
Lemma remove_blanks_gen : forall l v i, i + length l <= length v ->
  exists w, foldM (fun itemp s => let '(exp, iexp) := s in if blank itemp then Some (exp, iexp) else exp <- vset exp iexp itemp ;; Some (exp, S iexp)) l (v, i) =
    Some (w, i + length (nonblank l)) /\ length w = length v /\ firstn (i + length (nonblank l)) w = firstn i v ++ nonblank l.
Proof.
  induction l as [|c l IH]; intros v i H; cbn [length] in H.
  - exists v. cbn [foldM nonblank filter length]. rewrite Nat.add_0_r, app_nil_r. auto.
  - cbn [foldM]. unfold nonblank. cbn [filter]. destruct (blank c); cbn [bind negb].
    + apply IH. lia.
    + rewrite vset_upd by lia. cbn [bind]. destruct (IH (upd v i c) (S i)) as (w & E & L & F); [rewrite upd_length; lia|].
      exists w. cbn [length]. rewrite <- Nat.add_succ_comm. rewrite E. split; auto. rewrite upd_length in L. split; auto. fold (nonblank l). rewrite F.
      rewrite upd_skip by lia. change (S i) with (1 + i). rewrite Nat.add_comm. rewrite firstn_app, firstn_length, Nat.min_l by lia.
      rewrite firstn_all2 by (rewrite firstn_length; lia). replace (i + 1 - i) with 1 by lia. cbn [firstn]. rewrite <- app_assoc. auto.
Qed.
Lemma remove_blanks : forall t, RemoveExpressionSpaceNewline t = Some (nonblank t).
Proof.
  intros t. unfold RemoveExpressionSpaceNewline. destruct (remove_blanks_gen t t 0) as (w & E & L & F); [lia|]. unfold text in *. rewrite E. cbn [bind]. f_equal.
  cbn [firstn app Nat.add] in *. assert (K : length (nonblank t) <= length w).
  { rewrite L. unfold nonblank. clear. induction t as [|c t IH]; cbn [filter length]; [lia|]. destruct (negb _); cbn [length]; lia. }
  unfold vresize. rewrite F. replace (length (nonblank t) - length w) with 0 by lia. cbn [repeat]. apply app_nil_r.
Qed.

Lemma forb_inv : forall {S} (f : nat -> S -> option (S * bool)) (I : nat -> S -> Prop) (P : S -> Prop),
  forall n lo s s', (forall i t t' b, lo <= i < lo + n -> I i t -> f i t = Some (t', b) -> if b then P t' else I (Datatypes.S i) t') -> I lo s ->
  (forall t, I (lo + n) t -> P t) -> forb_ n lo f s = Some s' -> P s'.
Proof.
  induction n as [|n IH]; intros lo s s' St H F E; cbn [forb_] in E.
  - injection E as <-. apply F. rewrite Nat.add_0_r. auto.
  - destruct (f lo s) as [(t, b)|] eqn:Ef; cbn [bind] in E; [|discriminate]. assert (X := St lo s t b ltac:(lia) H Ef). destruct b.
    + injection E as <-. auto.
    + eapply IH; [|exact X| |exact E]; [intros; eapply St; eauto; lia|]. intros. apply F. replace (lo + Datatypes.S n) with (Datatypes.S lo + n) by lia. auto.
Qed.

Section Cmd.
Variable A : arith.
Notation ckey := (ckey A). Notation cmd := (cmd A).

Definition wfc (c : compo) : Prop :=
  iOpeType c = 0 \/ (iOpeType c = 1 /\ (iOpe c = None \/ iOpe c = Some 0)) \/ ((iOpeType c = 2 \/ iOpeType c = 3) /\ exists i, iOpe c = Some i).
Lemma rpn_wf : forall e c, In c (rpn e) -> wfc c.
Proof.
  assert (L : forall l x c, (forall c, In c l -> wfc c) -> wfc x -> In c (l ++ [x]) -> wfc c).
  { intros l x c H X I. apply in_app_or in I. destruct I as [I|[<-|[]]]; auto. }
  induction e; intros c; cbn [rpn]; intros H.
  1,2,3: destruct H as [<-|[]]; unfold wfc; cbn; auto.
  - rewrite app_assoc in H. revert H. apply L; [|right; right; cbn; eauto]. intros d Hd. apply in_app_or in Hd. destruct Hd; auto.
  - revert H. apply L; auto. right; right; cbn; eauto.
  - revert H. apply L; auto. right; right; cbn; eauto.
  - revert H. apply L; auto. right; right; cbn; eauto.
Qed.
Definition cmdof (env : text -> A) (c : compo) : cmd :=
  match iOpeType c, iOpe c with
  | 0, _ => COperand (v_num A (sOpe c))
  | 1, None => COperand (env (sOpe c))
  | 1, Some _ => COperand (v_pi A)
  | 2, Some i => CUnary i
  | _, Some i => CBinary i
  | _, None => CNull
  end.
Definition isvar (c : compo) (x : text) : bool := (iOpeType c =? 1) && onat_eqb (iOpe c) None && text_eqb (sOpe c) x.
Lemma isvar_cmdof : forall c x env, isvar c x = true -> sOpe c = x /\ cmdof env c = COperand (env x).
Proof.
  intros c x env H. unfold isvar in H. apply andb_true_iff in H. destruct H as (H & E). apply andb_true_iff in H. destruct H as (T & O).
  apply Nat.eqb_eq in T. unfold cmdof. rewrite T. destruct (iOpe c); [discriminate|]. unfold text_eqb in E. destruct (list_eq_dec _ _ _); [|discriminate]. subst. auto.
Qed.
Definition upde (env : text -> A) (x : text) (v : A) (y : text) : A := if list_eq_dec ascii_dec y x then v else env y.
Lemma text_eqb_spec : forall a b, reflect (a = b) (text_eqb a b).
Proof. intros. unfold text_eqb. destruct (list_eq_dec _ _ _); constructor; auto. Qed.
Lemma novar_cmdof : forall c x v env, isvar c x = false -> cmdof (upde env x v) c = cmdof env c.
Proof.
  intros c x v env H. unfold cmdof. destruct (iOpeType c) as [|[|n]] eqn:T; auto. destruct (iOpe c) eqn:O; auto. unfold isvar in H. rewrite T, O in H. cbn in H.
  unfold upde. destruct (list_eq_dec ascii_dec (sOpe c) x); auto. destruct (text_eqb_spec (sOpe c) x); congruence.
Qed.
Definition uses (vec : list compo) (n : nat) (x : text) : list nat := filter (fun p => isvar (nth p vec compo0) x) (seq 0 n).
Lemma uses_S : forall vec n x, uses vec (S n) x = uses vec n x ++ (if isvar (nth n vec compo0) x then [n] else []).
Proof. intros. unfold uses. rewrite seq_S, filter_app. cbn [Nat.add filter]. auto. Qed.
Lemma uses_spec : forall vec n x p, In p (uses vec n x) <-> p < n /\ isvar (nth p vec compo0) x = true.
Proof. intros. unfold uses. rewrite filter_In, in_seq. intuition lia. Qed.

Lemma set_cmds_gen : forall dbg val idx cmds, (forall i, In i idx -> exists v, nth_error cmds i = Some (COperand v)) ->
  exists cmds', set_cmds A dbg idx val cmds = Some cmds' /\ length cmds' = length cmds /\
    forall j, nth_error cmds' j = if in_dec Nat.eq_dec j idx then Some (COperand val) else nth_error cmds j.
Proof.
  intros dbg val idx. induction idx as [|i idx IH]; intros cmds H.
  - exists cmds. cbn. auto.
  - unfold set_cmds. cbn [foldM]. destruct (H i (or_introl eq_refl)) as (v & E). unfold vget. rewrite E. cbn [bind SetValue].
    assert (Li : i < length cmds) by (apply nth_error_Some; congruence). rewrite vset_upd by auto. cbn [bind].
    assert (U : forall j, nth_error (upd cmds i (COperand val)) j = if Nat.eq_dec i j then Some (COperand val) else nth_error cmds j).
    { intros j. destruct (Nat.lt_ge_cases j (length cmds)) as [L|L].
      - rewrite (nth_error_nth' _ CNull) by (rewrite upd_length; auto). rewrite nth_upd by auto. destruct (Nat.eq_dec i j); auto. rewrite (nth_error_nth' cmds CNull) by auto. auto.
      - rewrite (proj2 (nth_error_None _ _)) by (rewrite upd_length; auto). rewrite (proj2 (nth_error_None cmds j)) by auto. destruct (Nat.eq_dec i j); auto. lia. }
    destruct (IH (upd cmds i (COperand val))) as (c' & E' & L' & N').
    + intros k Hk. rewrite U. destruct (Nat.eq_dec i k); eauto. apply H. right; auto.
    + exists c'. split; [exact E'|]. rewrite upd_length in L'. split; auto. intros j. rewrite N', U.
      destruct (in_dec Nat.eq_dec j idx) as [I|I], (in_dec Nat.eq_dec j (i :: idx)) as [I2|I2]; auto.
      * exfalso. apply I2. right; auto.
      * destruct (Nat.eq_dec i j); auto. destruct I2; [congruence|contradiction].
      * destruct (Nat.eq_dec i j); auto. exfalso. apply I2. left; auto.
Qed.
Lemma nth_error_ext : forall {T} (a b : list T), (forall j, nth_error a j = nth_error b j) -> a = b.
Proof.
  induction a as [|x a IH]; intros [|y b] H; auto; try (specialize (H 0); discriminate). f_equal; [specialize (H 0); cbn in H; congruence|].
  apply IH. intros j. apply (H (S j)).
Qed.
Lemma set_cmds_env : forall dbg vec env x v, set_cmds A dbg (uses vec (length vec) x) v (map (cmdof env) vec) = Some (map (cmdof (upde env x v)) vec).
Proof.
  intros. destruct (set_cmds_gen dbg v (uses vec (length vec) x) (map (cmdof env) vec)) as (c & E & L & N).
  - intros i Hi. apply uses_spec in Hi. destruct Hi as (Li & Hi). exists (env x). rewrite nth_error_map, (nth_error_nth' vec compo0) by auto. cbn. f_equal. apply (isvar_cmdof _ _ env Hi).
  - rewrite E. f_equal. apply nth_error_ext. intros j. rewrite N, !nth_error_map. destruct (nth_error vec j) as [d|] eqn:Ej; cbn [option_map].
    + assert (Lj : j < length vec) by (apply nth_error_Some; congruence). assert (Nj := nth_error_nth vec j compo0 Ej).
      destruct (in_dec _ j _) as [I|I].
      * apply uses_spec in I. destruct I as (_ & I). rewrite Nj in I. destruct (isvar_cmdof _ _ (upde env x v) I) as (_ & R). rewrite R. unfold upde. destruct (list_eq_dec _ x x); congruence.
      * f_equal. symmetry. apply novar_cmdof. destruct (isvar d x) eqn:Ex; auto. exfalso. apply I. apply uses_spec. rewrite Nj. auto.
    + destruct (in_dec _ j _) as [I|I]; auto. apply uses_spec in I. destruct I as (I & _). apply nth_error_None in Ej. lia.
Qed.

(** keys with their recorded uses *)
Definition kat (vec : list compo) (n : nat) (k : ckey) : ckey := CKey (m_Name k) (uses vec n (m_Name k)) (m_Val k).
Lemma kat_same : forall vec n c K, nth n vec compo0 = c -> (forall k, In k K -> isvar c (m_Name k) = false) -> map (kat vec (S n)) K = map (kat vec n) K.
Proof. intros vec n c K E H. apply map_ext_in. intros k Hk. unfold kat. rewrite uses_S, E, (H k Hk), app_nil_r. auto. Qed.
Lemma use_key_ok : forall vec n K c, nth n vec compo0 = c -> iOpeType c = 1 -> iOpe c = None -> NoDup (map m_Name K) ->
  use_key A (map (kat vec n) K) (sOpe c) n = if in_dec (list_eq_dec ascii_dec) (sOpe c) (map m_Name K) then Some (map (kat vec (S n)) K) else None.
Proof.
  intros vec n K c E T O. induction K as [|k K IH]; intros ND; [reflexivity|]. inversion ND as [|? ? NI ND']; subst. cbn [map use_key]. cbn [kat m_Name m_aiCmd m_Val].
  assert (V : forall x, isvar (nth n vec compo0) x = text_eqb (sOpe (nth n vec compo0)) x) by (intros; unfold isvar; rewrite T, O; auto).
  destruct (text_eqb_spec (m_Name k) (sOpe (nth n vec compo0))) as [Ek|Ek].
  - clear IH. destruct (in_dec _ _ _) as [I|I]; [|exfalso; apply I; cbn; auto]. f_equal. f_equal.
    + unfold kat. rewrite uses_S, V, Ek. destruct (text_eqb_spec (sOpe (nth n vec compo0)) (sOpe (nth n vec compo0))) as [_|X]; [reflexivity|contradiction X; reflexivity].
    + symmetry. apply (kat_same _ _ _ _ eq_refl). intros j Hj. rewrite V. destruct (text_eqb_spec (sOpe (nth n vec compo0)) (m_Name j)) as [R|R]; auto. exfalso. apply NI. rewrite Ek, R. apply in_map; auto.
  - rewrite (IH ND'). clear IH. set (nm := sOpe (nth n vec compo0)) in *.
    destruct (in_dec (list_eq_dec ascii_dec) nm (map m_Name K)) as [I|I]; destruct (in_dec (list_eq_dec ascii_dec) nm (m_Name k :: map m_Name K)) as [I2|I2]; cbn [bind]; auto; subst nm.
    + f_equal. f_equal. unfold kat. rewrite uses_S, V. destruct (text_eqb_spec (sOpe (nth n vec compo0)) (m_Name k)); [congruence|]. rewrite app_nil_r. auto.
    + exfalso. apply I2. right; auto.
    + destruct I2; contradiction.
Qed.

Definition varnames (vec : list compo) : list text := flat_map (fun c => if (iOpeType c =? 1) && onat_eqb (iOpe c) None then [sOpe c] else []) vec.
Definition zenv : text -> A := fun _ => v_zero A.
Definition mc_step (dbg : bool) (vec : list compo) (iexp : nat) (s : bool * list cmd * list ckey) : option ((bool * list cmd * list ckey) * bool) :=
    let '(_, cmds, keys) := s in
    c <- vget vec iexp ;;
    if iOpeType c =? 0 then cmds <- vset cmds iexp (COperand (v_num A (sOpe c))) ;; Some ((true, cmds, keys), false)
    else if iOpeType c =? 1 then
      match iOpe c with
      | None =>
          match use_key A keys (sOpe c) iexp with
          | None => Some ((false, cmds, keys), true)
          | Some keys => cmds <- vset cmds iexp (COperand (v_zero A)) ;; Some ((true, cmds, keys), false)
          end
      | Some iopr0 => assertb (negb dbg || (iopr0 =? 0)) ;;; cmds <- vset cmds iexp (COperand (v_pi A)) ;; Some ((true, cmds, keys), false)
      end
    else if iOpeType c =? 2 then i <- iOpe c ;; cmds <- vset cmds iexp (CUnary i) ;; Some ((true, cmds, keys), false)
    else if iOpeType c =? 3 then i <- iOpe c ;; cmds <- vset cmds iexp (CBinary i) ;; Some ((true, cmds, keys), false)
    else assertb (negb dbg) ;;; Some ((true, cmds, keys), false).
Lemma MakeCmdAry_eq : forall dbg keys vec, MakeCmdAry A dbg keys vec = forb 0 (length vec) (mc_step dbg vec) (true, repeat CNull (length vec), keys).
Proof. reflexivity. Qed.

Lemma mc_loop : forall dbg K vec, NoDup (map m_Name K) -> (forall c, In c vec -> wfc c) -> forall rest pre, vec = pre ++ rest ->
  (forall x, In x (varnames pre) -> In x (map m_Name K)) ->
  let s := (true, map (cmdof zenv) pre ++ repeat CNull (length rest), map (kat vec (length pre)) K) in
  ((forall x, In x (varnames vec) -> In x (map m_Name K)) ->
    forb_ (length rest) (length pre) (mc_step dbg vec) s = Some (true, map (cmdof zenv) vec, map (kat vec (length vec)) K)) /\
  ((exists x, In x (varnames vec) /\ ~ In x (map m_Name K)) ->
    exists cs ks, forb_ (length rest) (length pre) (mc_step dbg vec) s = Some (false, cs, ks)).
Proof.
  intros dbg K vec ND WF. induction rest as [|c rest IH]; intros pre E Hp s; subst s.
  - rewrite app_nil_r in E. subst pre. cbn [length repeat forb_]. rewrite app_nil_r. split; auto. intros (x & Hx & N). exfalso. auto.
  - cbn [length repeat forb_].
    assert (Nc : nth (length pre) vec compo0 = c) by (rewrite E, app_nth2, Nat.sub_diag by lia; auto).
    assert (Vc : vget vec (length pre) = Some c) by (rewrite (vget_nth _ compo0) by (rewrite E, app_length; cbn; lia); rewrite Nc; auto).
    assert (W : wfc c) by (apply WF; rewrite E; apply in_or_app; right; left; auto).
    specialize (IH (pre ++ [c])). rewrite <- app_assoc in IH. specialize (IH E).
    assert (VA : varnames (pre ++ [c]) = varnames pre ++ (if (iOpeType c =? 1) && onat_eqb (iOpe c) None then [sOpe c] else [])) by (unfold varnames; rewrite flat_map_app; cbn; rewrite app_nil_r; auto).
    rewrite VA in IH. rewrite app_length in IH. cbn [length] in IH. rewrite Nat.add_1_r in IH. rewrite map_app in IH. cbn [map] in IH. rewrite <- app_assoc in IH. cbn [app] in IH.
    assert (SET : forall d, vset (map (cmdof zenv) pre ++ CNull :: repeat CNull (length rest)) (length pre) d = Some (map (cmdof zenv) pre ++ d :: repeat CNull (length rest))).
    { intros d. rewrite vset_upd by (rewrite app_length, map_length; cbn; lia). rewrite upd_app_r by (rewrite map_length; lia). rewrite map_length, Nat.sub_diag. auto. }
    assert (GEN : (iOpeType c =? 1) && onat_eqb (iOpe c) None = false -> mc_step dbg vec (length pre) (true, map (cmdof zenv) pre ++ CNull :: repeat CNull (length rest), map (kat vec (length pre)) K) =
       Some ((true, map (cmdof zenv) pre ++ cmdof zenv c :: repeat CNull (length rest), map (kat vec (S (length pre))) K), false)).
    { intros NV. assert (KS : map (kat vec (S (length pre))) K = map (kat vec (length pre)) K) by (apply (kat_same _ _ _ _ Nc); intros; unfold isvar; rewrite NV; auto).
      rewrite KS. unfold mc_step. rewrite Vc. cbn [bind]. unfold cmdof. destruct W as [T|[(T & [O|O])|([T|T] & i & O)]]; rewrite T in *; try rewrite O in *.
      - cbn [Nat.eqb]. rewrite SET. auto.
      - discriminate.
      - cbn [Nat.eqb]. rewrite orb_true_r. cbn [assertb bind]. rewrite SET. auto.
      - cbn [Nat.eqb bind]. rewrite SET. auto.
      - cbn [Nat.eqb bind]. rewrite SET. auto. }
    destruct ((iOpeType c =? 1) && onat_eqb (iOpe c) None) eqn:NV.
    + apply andb_true_iff in NV. destruct NV as (T & O). apply Nat.eqb_eq in T. destruct (iOpe c) eqn:O'; [discriminate|]. clear O.
      assert (ST : mc_step dbg vec (length pre) (true, map (cmdof zenv) pre ++ CNull :: repeat CNull (length rest), map (kat vec (length pre)) K) =
         if in_dec (list_eq_dec ascii_dec) (sOpe c) (map m_Name K) then Some ((true, map (cmdof zenv) pre ++ cmdof zenv c :: repeat CNull (length rest), map (kat vec (S (length pre))) K), false)
         else Some ((false, map (cmdof zenv) pre ++ CNull :: repeat CNull (length rest), map (kat vec (length pre)) K), true)).
      { unfold mc_step. rewrite Vc. cbn [bind]. rewrite T, O'. cbn [Nat.eqb]. rewrite (use_key_ok vec _ K c Nc T O' ND). destruct (in_dec _ _ _); auto. rewrite SET. cbn [bind]. unfold cmdof. rewrite T, O'. auto. }
      rewrite ST. destruct (in_dec (list_eq_dec ascii_dec) (sOpe c) (map m_Name K)) as [I|I]; cbn [bind].
      * apply IH. intros x Hx. apply in_app_or in Hx. destruct Hx as [Hx|[<-|[]]]; auto.
      * split; [|eauto]. intros H. exfalso. apply I, H. rewrite E. unfold varnames. rewrite flat_map_app. apply in_or_app. right. cbn [flat_map]. rewrite T, O'. cbn. auto.
    + rewrite GEN by auto. cbn [bind]. apply IH. intros x Hx. rewrite app_nil_r in Hx. auto.
Qed.
Lemma MakeCmdAry_ok : forall dbg K vec, NoDup (map m_Name K) -> (forall k, In k K -> m_aiCmd k = []) -> (forall c, In c vec -> wfc c) ->
  ((forall x, In x (varnames vec) -> In x (map m_Name K)) -> MakeCmdAry A dbg K vec = Some (true, map (cmdof zenv) vec, map (kat vec (length vec)) K)) /\
  ((exists x, In x (varnames vec) /\ ~ In x (map m_Name K)) -> exists cs ks, MakeCmdAry A dbg K vec = Some (false, cs, ks)).
Proof.
  intros dbg K vec ND EK WF. rewrite MakeCmdAry_eq. unfold forb. rewrite Nat.sub_0_r. assert (H := mc_loop dbg K vec ND WF vec [] eq_refl). cbn [map app length] in H.
  replace (map (kat vec 0) K) with K in H; [apply H; intros x []|]. rewrite <- (map_id K) at 1. apply map_ext_in. intros k Hk. specialize (EK k Hk). destruct k. cbn in EK. subst. auto.
Qed.
Lemma varnames_rpn : forall e x, In x (varnames (rpn e)) <-> In x (vars e).
Proof.
  assert (AP : forall a b, varnames (a ++ b) = varnames a ++ varnames b) by (intros; apply flat_map_app).
  induction e; intros y; cbn [rpn vars]; rewrite ?AP, ?in_app_iff; cbn [varnames flat_map iOpeType iOpe Nat.eqb onat_eqb andb app In]; try rewrite ?IHe, ?IHe1, ?IHe2; tauto.
Qed.

(** looking up a key *)
Fixpoint lk (K : list ckey) (x : text) : option A :=
  match K with [] => None | k :: K => if list_eq_dec ascii_dec (m_Name k) x then Some (m_Val k) else lk K x end.
Definition kenv (K : list ckey) (x : text) : A := match lk K x with Some v => v | None => v_zero A end.
Lemma lk_in : forall K x, In x (map m_Name K) <-> lk K x <> None.
Proof.
  induction K as [|k K IH]; intros x; cbn [map In lk]; [tauto|]. destruct (list_eq_dec ascii_dec (m_Name k) x); [split; [discriminate|auto]|]. rewrite IH. tauto.
Qed.
Lemma lk_names : forall K K', map (fun k => (m_Name k, m_Val k)) K = map (fun k : ckey => (m_Name k, m_Val k)) K' -> forall x, lk K x = lk K' x.
Proof.
  induction K as [|k K IH]; intros [|k' K'] H x; try discriminate; auto. injection H as H1 H2 H3. cbn [lk]. rewrite H1, H2. destruct (list_eq_dec _ _ _); auto.
Qed.
Lemma fold_env : forall K env, NoDup (map m_Name K) -> forall x, fold_left (fun en k => upde en (m_Name k) (m_Val k)) K env x = match lk K x with Some v => v | None => env x end.
Proof.
  induction K as [|k K IH]; intros env ND x; [auto|]. inversion ND as [|? ? NI ND']; subst. cbn [fold_left lk]. rewrite IH by auto. unfold upde at 1.
  destruct (list_eq_dec ascii_dec (m_Name k) x) as [<-|N].
  - destruct (lk K (m_Name k)) eqn:E; [exfalso; apply NI; apply lk_in; congruence|]. destruct (list_eq_dec ascii_dec (m_Name k) (m_Name k)); congruence.
  - destruct (lk K x); auto. destruct (list_eq_dec ascii_dec x (m_Name k)); congruence.
Qed.
Lemma cmdof_ext : forall e1 e2 vec, (forall x, In x (varnames vec) -> e1 x = e2 x) -> map (cmdof e1) vec = map (cmdof e2) vec.
Proof.
  intros e1 e2 vec H. apply map_ext_in. intros c Hc. unfold cmdof. destruct (iOpeType c) as [|[|n]] eqn:T; auto. destruct (iOpe c) eqn:O; auto. f_equal. apply H.
  unfold varnames. apply in_flat_map. exists c. rewrite T, O. cbn. auto.
Qed.
Lemma set_all : forall dbg vec K env, foldM (fun key cmds => set_cmds A dbg (m_aiCmd key) (m_Val key) cmds) (map (kat vec (length vec)) K) (map (cmdof env) vec) =
  Some (map (cmdof (fold_left (fun en k => upde en (m_Name k) (m_Val k)) K env)) vec).
Proof. intros dbg vec. induction K as [|k K IH]; intros env; [reflexivity|]. cbn [map foldM kat m_aiCmd m_Val fold_left]. rewrite set_cmds_env. cbn [bind]. apply IH. Qed.

(** a state that holds an expression *)
Definition rep (vec : list compo) (st : evaluator A) : Prop :=
  m_is_valid st = true /\ NoDup (map m_Name (m_aKey st)) /\ (forall x, In x (varnames vec) -> In x (map m_Name (m_aKey st))) /\
  m_aKey st = map (kat vec (length vec)) (m_aKey st) /\ m_apCmd st = map (cmdof (kenv (m_aKey st))) vec.
Lemma map_kat_names : forall vec n K, map (fun k : ckey => (m_Name k, m_Val k)) (map (kat vec n) K) = map (fun k => (m_Name k, m_Val k)) K.
Proof. intros. rewrite map_map. auto. Qed.
Lemma names_pairs : forall K K', map (fun k => (m_Name k, m_Val k)) K = map (fun k : ckey => (m_Name k, m_Val k)) K' -> map m_Name K = map m_Name K'.
Proof. intros K K' H. apply (f_equal (map fst)) in H. rewrite !map_map in H. exact H. Qed.

Section Exp.
Variable sg : bool.
Lemma SetExp_ok : forall dbg st l e t, NoDup (map m_Name (m_aKey st)) -> spells sg l e (nonblank t) -> (sg = true -> dbg = false) ->
  ((forall x, In x (vars e) -> In x (map m_Name (m_aKey st))) ->
    exists st', SetExp A dbg st t = Some (true, st') /\ rep (rpn e) st' /\ map (fun k => (m_Name k, m_Val k)) (m_aKey st') = map (fun k : ckey => (m_Name k, m_Val k)) (m_aKey st)) /\
  ((exists x, In x (vars e) /\ ~ In x (map m_Name (m_aKey st))) -> exists st', SetExp A dbg st t = Some (false, st')).
Proof.
  intros dbg st l e t ND Sp SG. unfold SetExp. rewrite remove_blanks. cbn [bind].
  destruct (strip_ok sg l e _ Sp (S (length (nonblank t)))) as (t' & E & B & L); [lia|]. rewrite E. cbn [bind].
  assert (N := bare_nonempty sg _ _ B). destruct (Nat.eqb_spec (length t') 0) as [Z|_]; [destruct t'; [congruence|discriminate]|].
  assert (M := MakeRPN_ok sg dbg (S (length t')) e t' [] 0 None SG B (Nat.lt_succ_diag_r _)). cbn [app length] in M. rewrite M. cbn [bind negb].
  set (K0 := map (fun k : ckey => CKey (m_Name k) [] (m_Val k)) (m_aKey st)).
  assert (NK : map m_Name K0 = map m_Name (m_aKey st)) by (unfold K0; rewrite map_map; auto).
  destruct (MakeCmdAry_ok dbg K0 (rpn e)) as (G1 & G2).
  { rewrite NK; auto. } { intros k Hk. apply in_map_iff in Hk. destruct Hk as (k0 & <- & _). auto. } { apply rpn_wf. }
  rewrite NK in G1, G2. split.
  - intros H. rewrite G1 by (intros x Hx; apply H, varnames_rpn; auto). cbn [bind negb]. rewrite set_all. cbn [bind]. eexists. split; [reflexivity|].
    assert (PK : map (fun k => (m_Name k, m_Val k)) (map (kat (rpn e) (length (rpn e))) K0) = map (fun k : ckey => (m_Name k, m_Val k)) (m_aKey st)) by (rewrite map_kat_names; unfold K0; rewrite map_map; auto).
    split; auto. unfold rep. cbn [m_is_valid m_aKey m_apCmd]. rewrite (names_pairs _ _ PK). split; auto. split; auto. split; [intros x Hx; apply H, varnames_rpn; auto|]. split.
    + rewrite map_map. auto.
    + apply cmdof_ext. intros x Hx. rewrite fold_env by (rewrite NK; auto). unfold kenv. rewrite (lk_names (map (kat (rpn e) (length (rpn e))) K0) K0) by apply map_kat_names. auto.
  - intros (x & Hx & NI). destruct G2 as (cs & ks & E2); [exists x; rewrite varnames_rpn; auto|]. rewrite E2. cbn [bind negb]. eauto.
Qed.
End Exp.

End Cmd.
