(** The initial table of CLinPro::Precomp. *)
From Coq Require Import List Arith Lia Bool Ring.
Import ListNotations.
From Verif Require Import Imp Alg LpModel LpSpec LpProofs1 LpProofs2 LpProofs3 LpProofs4.

Section P.
Variable F : ofield.
Add Ring Fr : (rlaws F).
Local Open Scope K_scope.
Variable eqs : list (ceq F).
Notation nq := (length eqs).
Definition eqn (i : nat) : ceq F := nth i eqs (mkEq [] 0 LE).
Definition isS (e : ceq F) : bool := match itype e with EQ => false | _ => true end.
Definition isA (e : ceq F) : bool := match itype e with LE => oltb (erhs e) 0 | GE => oltb 0 (erhs e) | EQ => true end.
Definition sS (e : ceq F) : F := match itype e with LE => 1 | GE => - (1) | EQ => 0 end.
Definition sA (e : ceq F) : F := match itype e with LE => - (1) | GE => 1 | EQ => if negb (oltb (erhs e) 0) then 1 else - (1) end.
Definition cnt (f : ceq F -> bool) (i : nat) : nat := length (filter f (firstn i eqs)).
Definition nv := nvars eqs.
Definition nS := cnt isS nq.
Definition nA := cnt isA nq.
Definition sc (i : nat) : nat := (2 +n nv +n cnt isS i)%nat.
Definition ac (i : nat) : nat := (2 +n nv +n nS +n cnt isA i)%nat.

Lemma firstn_S : forall k, (k < nq)%nat -> firstn (S k) eqs = firstn k eqs ++ [eqn k].
Proof.
  unfold eqn. induction eqs as [|e l IH]; simpl; intros. lia. destruct k; simpl. auto. f_equal. apply IH. lia.
Qed.
Lemma cnt_S : forall f k, (k < nq)%nat -> cnt f (S k) = (cnt f k +n (if f (eqn k) then 1 else 0))%nat.
Proof. intros. unfold cnt. rewrite firstn_S by auto. rewrite filter_app, app_length. simpl. destruct (f (eqn k)); auto. Qed.
Lemma cnt_mono : forall f i k, (i <= k)%nat -> (k <= nq)%nat -> (cnt f i <= cnt f k)%nat.
Proof. intros f i k H. induction H; intros; auto. rewrite cnt_S by lia. specialize (IHle ltac:(lia)). lia. Qed.
Lemma cnt_lt : forall f i k, (i < k)%nat -> (k <= nq)%nat -> f (eqn i) = true -> (cnt f i < cnt f k)%nat.
Proof. intros. pose proof (cnt_mono f (S i) k ltac:(lia) H0). rewrite cnt_S, H1 in H2 by lia. lia. Qed.
Lemma cnt_inj : forall f i k, (i < nq)%nat -> (k < nq)%nat -> f (eqn i) = true -> f (eqn k) = true -> cnt f i = cnt f k -> i = k.
Proof. intros. destruct (lt_eq_lt_dec i k) as [[H4|H4]|H4]; auto; exfalso. pose proof (cnt_lt f i k H4 ltac:(lia) H1). lia. pose proof (cnt_lt f k i H4 ltac:(lia) H2). lia. Qed.
Lemma len_nv : forall i, (i < nq)%nat -> (length (aCoeff (eqn i)) <= nv)%nat.
Proof.
  unfold nv, eqn, nvars. intros i H. pose proof (nth_In eqs (mkEq [] 0 LE) H) as Hi. revert Hi. generalize (nth i eqs (mkEq [] 0 LE)). clear H. induction eqs as [|e l IH]; simpl; intros. tauto.
  destruct Hi as [->|Hi]. lia. specialize (IH _ Hi). lia.
Qed.
Lemma sc_lt : forall i, (i < nq)%nat -> isS (eqn i) = true -> (sc i < 2 +n nv +n nS)%nat.
Proof. intros. unfold sc. pose proof (cnt_lt isS i nq H ltac:(lia) H0). unfold nS. lia. Qed.
Lemma ac_lt : forall i, (i < nq)%nat -> isA (eqn i) = true -> (ac i < 2 +n nv +n nS +n nA)%nat.
Proof. intros. unfold ac. pose proof (cnt_lt isA i nq H ltac:(lia) H0). unfold nA. lia. Qed.

Definition smap (f : ceq F -> bool) (m : list (option nat)) : Prop := length m = nq /\ forall i, (i < nq)%nat -> nth i m None = if f (eqn i) then Some (cnt f i) else None.

Lemma nvars_app : forall l e, nvars (l ++ [e]) = Nat.max (nvars l) (length (aCoeff (F := F) e)).
Proof. unfold nvars. induction l; simpl; intros. lia. rewrite IHl. lia. Qed.

Lemma count_ok : wp (count_eqs eqs) (fun r => let '(a, b, c, ms, ma) := r in a = nv /\ b = nS /\ c = nA /\ smap isS ms /\ smap isA ma).
Proof.
  unfold count_eqs.
  apply wp_forn with (I := fun k (r : nat * nat * nat * list (option nat) * list (option nat)) => let '(a, b, c, ms, ma) := r in a = nvars (firstn k eqs) /\ b = cnt isS k /\ c = cnt isA k /\
    length ms = nq /\ (forall i, (i < nq)%nat -> nth i ms None = if (i <? k) && isS (eqn i) then Some (cnt isS i) else None) /\
    length ma = nq /\ (forall i, (i < nq)%nat -> nth i ma None = if (i <? k) && isA (eqn i) then Some (cnt isA i) else None)).
  - lia.
  - repeat split; auto; try apply repeat_length; intros; apply nth_repeat.
  - intros k ((((a, b), c), ms), ma) Hk (-> & -> & -> & Lms & Ems & Lma & Ema). apply wp_bind. apply wp_vget with (d := mkEq [] 0 LE). lia. fold (eqn k).
    assert (Enb : forall f, f (eqn k) = false -> cnt f (S k) = cnt f k) by (intros; rewrite cnt_S, H by lia; lia).
    assert (Eb : forall f, f (eqn k) = true -> cnt f (S k) = S (cnt f k)) by (intros; rewrite cnt_S, H by lia; lia).
    assert (Env : (if nvars (firstn k eqs) <? length (aCoeff (eqn k)) then length (aCoeff (eqn k)) else nvars (firstn k eqs)) = nvars (firstn (S k) eqs)).
    { rewrite firstn_S by lia. rewrite nvars_app. destruct (Nat.ltb_spec (nvars (firstn k eqs)) (length (aCoeff (eqn k)))); lia. }
    rewrite Env. clear Env.
    assert (U1 : forall f m, length m = nq -> (forall i, (i < nq)%nat -> nth i m None = if (i <? k) && f (eqn i) then Some (cnt f i) else None) -> f (eqn k) = true ->
      forall i, (i < nq)%nat -> nth i (upd m k (Some (cnt f k))) None = if (i <? S k) && f (eqn i) then Some (cnt f i) else None).
    { intros f m Lm Em Hf i Hi. rewrite nth_upd by lia. destruct (Nat.eq_dec k i). subst. replace (i <? S i) with true by (symmetry; apply Nat.ltb_lt; lia). rewrite Hf. auto.
      rewrite Em by auto. destruct (Nat.ltb_spec i k), (Nat.ltb_spec i (S k)); auto; lia. }
    assert (U2 : forall f (m : list (option nat)), (forall i, (i < nq)%nat -> nth i m None = if (i <? k) && f (eqn i) then Some (cnt f i) else None) -> f (eqn k) = false ->
      forall i, (i < nq)%nat -> nth i m None = if (i <? S k) && f (eqn i) then Some (cnt f i) else None).
    { intros f m Em Hf i Hi. rewrite Em by auto. destruct (Nat.ltb_spec i k), (Nat.ltb_spec i (S k)); auto; try lia. replace i with k by lia. rewrite Hf. auto. }
    destruct (itype (eqn k)) eqn:Et.
    + apply wp_bind. apply wp_bind. apply wp_vset. lia. apply wp_some. apply wp_bind. assert (Hs : isS (eqn k) = true) by (unfold isS; rewrite Et; auto). destruct (oltb (erhs (eqn k)) 0) eqn:Er.
      * apply wp_bind. apply wp_vset. lia. apply wp_some. apply wp_some. assert (Ha : isA (eqn k) = true) by (unfold isA; rewrite Et; (assumption || reflexivity)). rewrite !Eb by auto. rewrite !upd_length. repeat split; auto.
      * apply wp_some. apply wp_some. assert (Ha : isA (eqn k) = false) by (unfold isA; rewrite Et; (assumption || reflexivity)). rewrite (Eb isS), (Enb isA) by auto. rewrite !upd_length. repeat split; auto.
    + apply wp_bind. apply wp_bind. apply wp_vset. lia. apply wp_some. apply wp_bind. assert (Hs : isS (eqn k) = true) by (unfold isS; rewrite Et; auto). destruct (oltb 0 (erhs (eqn k))) eqn:Er.
      * apply wp_bind. apply wp_vset. lia. apply wp_some. apply wp_some. assert (Ha : isA (eqn k) = true) by (unfold isA; rewrite Et; (assumption || reflexivity)). rewrite !Eb by auto. rewrite !upd_length. repeat split; auto.
      * apply wp_some. apply wp_some. assert (Ha : isA (eqn k) = false) by (unfold isA; rewrite Et; (assumption || reflexivity)). rewrite (Eb isS), (Enb isA) by auto. rewrite !upd_length. repeat split; auto.
    + apply wp_bind. apply wp_some. apply wp_bind. apply wp_bind. apply wp_vset. lia. apply wp_some. apply wp_some.
      assert (Hs : isS (eqn k) = false) by (unfold isS; rewrite Et; auto). assert (Ha : isA (eqn k) = true) by (unfold isA; rewrite Et; (assumption || reflexivity)). rewrite (Eb isA), (Enb isS) by auto. rewrite !upd_length. repeat split; auto.
  - intros ((((a, b), c), ms), ma) (-> & -> & -> & Lms & Ems & Lma & Ema). rewrite firstn_all. repeat split; auto; intros i Hi; [rewrite Ems|rewrite Ema]; auto; replace (i <? nq) with true by (symmetry; apply Nat.ltb_lt; lia); auto.
Qed.

(** The row of an equation. *)
Definition rs (i j : nat) : F :=
  if j =? 0 then erhs (eqn i) else if (2 <=? j) && (j <? 2 +n length (aCoeff (eqn i))) then nth (j -n 2) (aCoeff (eqn i)) 0
  else if isS (eqn i) && (j =? sc i) then sS (eqn i) else if isA (eqn i) && (j =? ac i) then sA (eqn i) else 0.

Section Nrow.
Variable nrow : nat.
Hypothesis Hnrow : nrow = (2 +n nv +n nS +n nA)%nat.
Let Hnr : (2 <= nrow)%nat. Proof. lia. Qed.
Notation TT := (T F nrow).

Lemma fill_ok : forall ms ma A, smap isS ms -> smap isA ma -> length A = ((nq +n 1) *n nrow)%nat -> (forall i j, (j < nrow)%nat -> TT A i j = 0) ->
  wp (fill_table eqs nv nS nrow ms ma A) (fun A' => length A' = ((nq +n 1) *n nrow)%nat /\ forall i j, (i <= nq)%nat -> (j < nrow)%nat -> TT A' i j = if i <? nq then rs i j else 0).
Proof.
  intros ms ma A (Lms & Ems) (Lma & Ema) LA EA. unfold fill_table.
  apply wp_forn with (I := fun k A' => length A' = ((nq +n 1) *n nrow)%nat /\ forall i j, (i <= nq)%nat -> (j < nrow)%nat -> TT A' i j = if i <? k then rs i j else 0).
  - lia.
  - split; auto.
  - intros k A1 Hk (L1 & E1). apply wp_bind. apply wp_vget with (d := mkEq [] 0 LE). lia. fold (eqn k). pose proof (len_nv k ltac:(lia)) as Hl. set (e := eqn k) in *.
    apply wp_bind. pose proof (ix0 nq nrow Hnr k ltac:(lia)). apply wp_vset. lia. apply wp_bind. replace (k *n nrow)%nat with (k *n nrow +n 0)%nat by lia.
    apply wp_forn with (I := fun m A' => length A' = ((nq +n 1) *n nrow)%nat /\ forall i j, (i <= nq)%nat -> (j < nrow)%nat -> TT A' i j =
      if i =? k then (if j =? 0 then erhs e else if (2 <=? j) && (j <? 2 +n m) then nth (j -n 2) (aCoeff e) 0 else 0) else if i <? k then rs i j else 0).
    + lia.
    + split. rewrite upd_length. auto. intros i j Hi Hj. rewrite (T_upd F nrow Hnr _ (nq +n 1)) by (auto; lia). rewrite E1 by auto. destruct (Nat.eqb_spec i k); rewrite ?andb_true_l, ?andb_false_l, ?andb_true_r, ?andb_false_r; cbv iota; auto. subst. replace (k <? k) with false by (symmetry; apply Nat.ltb_ge; lia).
      destruct (Nat.eqb_spec j 0); auto. destruct (Nat.leb_spec 2 j), (Nat.ltb_spec j (2 +n 0)); auto; lia.
    + intros m A2 Hm (L2 & E2). apply wp_bind. apply wp_vget with (d := 0). lia. replace (k *n nrow +n 0 +n 2 +n m)%nat with (k *n nrow +n (2 +n m))%nat by lia. pose proof (ix nq nrow Hnr k (2 +n m) ltac:(lia) ltac:(lia)). apply wp_vset. lia.
      split. rewrite upd_length. auto. intros i j Hi Hj. rewrite (T_upd F nrow Hnr _ (nq +n 1)) by (auto; lia). rewrite E2 by auto. destruct (Nat.eqb_spec i k); [|auto]. rewrite andb_true_l. destruct (Nat.eqb_spec j (2 +n m)).
      * subst j. destruct (Nat.eqb_spec (2 +n m) 0). lia. destruct (Nat.leb_spec 2 (2 +n m)), (Nat.ltb_spec (2 +n m) (2 +n S m)); try lia. rewrite ?andb_true_l, ?andb_false_l, ?andb_true_r, ?andb_false_r. cbv iota. f_equal. lia.
      * destruct (Nat.eqb_spec j 0); auto. destruct (Nat.leb_spec 2 j), (Nat.ltb_spec j (2 +n S m)), (Nat.ltb_spec j (2 +n m)); rewrite ?andb_true_l, ?andb_false_l, ?andb_true_r, ?andb_false_r; cbv iota; auto; lia.
    + intros A2 (L2 & E2). apply wp_bind. apply wp_vget with (d := None). lia. apply wp_bind. apply wp_vget with (d := None). lia. rewrite Ems, Ema by lia. fold e.
      assert (Hend : forall A3, length A3 = ((nq +n 1) *n nrow)%nat -> (forall i j, (i <= nq)%nat -> (j < nrow)%nat -> TT A3 i j = if i =? k then rs k j else TT A2 i j) ->
        length A3 = ((nq +n 1) *n nrow)%nat /\ forall i j, (i <= nq)%nat -> (j < nrow)%nat -> TT A3 i j = if i <? S k then rs i j else 0).
      { intros A3 L3 E3. split; auto. intros i j Hi Hj. rewrite E3 by auto. destruct (Nat.eqb_spec i k). subst. replace (k <? S k) with true by (symmetry; apply Nat.ltb_lt; lia). auto.
        rewrite E2 by auto. destruct (Nat.eqb_spec i k); [congruence|]. destruct (Nat.ltb_spec i k), (Nat.ltb_spec i (S k)); auto; lia. }
      assert (Hsl : isS e = true -> (k *n nrow +n sc k < length A2)%nat /\ (sc k < nrow)%nat). { intros Hs. pose proof (sc_lt k ltac:(lia) Hs). split. rewrite L2. apply (ix nq nrow Hnr); lia. lia. }
      assert (Hal : isA e = true -> (k *n nrow +n ac k < length A2)%nat /\ (ac k < nrow)%nat). { intros Hs. pose proof (ac_lt k ltac:(lia) Hs). split. rewrite L2. apply (ix nq nrow Hnr); lia. lia. }
      assert (Hsa : isS e = true -> (sc k < ac k)%nat). { intros Hs. pose proof (sc_lt k ltac:(lia) Hs). unfold ac. lia. }
      assert (Hge : (2 +n length (aCoeff e) <= sc k)%nat) by (unfold sc; lia). assert (Hge2 : (2 +n length (aCoeff e) <= ac k)%nat) by (unfold ac; lia).
      assert (Er : forall j, rs k j = if j =? 0 then erhs e else if (2 <=? j) && (j <? 2 +n length (aCoeff e)) then nth (j -n 2) (aCoeff e) 0
        else if isS e && (j =? sc k) then sS e else if isA e && (j =? ac k) then sA e else 0) by reflexivity.
      assert (X1 : (k *n nrow +n 0 +n 2 +n nv +n cnt isS k = k *n nrow +n sc k)%nat) by (unfold sc; lia). assert (X2 : (k *n nrow +n 0 +n 2 +n nv +n nS +n cnt isA k = k *n nrow +n ac k)%nat) by (unfold ac; lia).
      assert (D1 : isS e = true -> forall v, forall i j, (i <= nq)%nat -> (j < nrow)%nat -> TT (upd A2 (k *n nrow +n sc k) v) i j = if (i =? k) && (j =? sc k) then v else TT A2 i j). { intros Hs v i j Hi Hj. apply (T_upd F nrow Hnr _ (nq +n 1)); auto; try lia. apply Hsl; auto. }
      assert (FinS : isS e = true -> isA e = false -> forall i j, (i <= nq)%nat -> (j < nrow)%nat -> TT (upd A2 (k *n nrow +n sc k) (sS e)) i j = if i =? k then rs k j else TT A2 i j).
      { intros Hs Ha i j Hi Hj. rewrite D1 by auto. destruct (Nat.eqb_spec i k); auto. subst i. rewrite andb_true_l, Er, Hs, Ha. rewrite E2, Nat.eqb_refl by auto. destruct (Nat.eqb_spec j (sc k)).
        - destruct (Nat.eqb_spec j 0). lia. destruct (Nat.leb_spec 2 j), (Nat.ltb_spec j (2 +n length (aCoeff e))); try lia. simpl. auto.
        - destruct (Nat.eqb_spec j 0), ((2 <=? j) && (j <? 2 +n length (aCoeff e))); auto. }
      assert (FinSA : isS e = true -> isA e = true -> forall i j, (i <= nq)%nat -> (j < nrow)%nat -> TT (upd (upd A2 (k *n nrow +n sc k) (sS e)) (k *n nrow +n ac k) (sA e)) i j = if i =? k then rs k j else TT A2 i j).
      { intros Hs Ha i j Hi Hj. rewrite (T_upd F nrow Hnr _ (nq +n 1)) by (auto; try lia; try apply Hal; auto; rewrite upd_length; auto). rewrite D1 by auto. destruct (Nat.eqb_spec i k); auto. subst i. rewrite !andb_true_l, Er, Hs, Ha. rewrite E2, Nat.eqb_refl by auto. specialize (Hsa Hs).
        destruct (Nat.eqb_spec j (ac k)), (Nat.eqb_spec j (sc k)); try lia.
        - destruct (Nat.eqb_spec j 0). lia. destruct (Nat.leb_spec 2 j), (Nat.ltb_spec j (2 +n length (aCoeff e))); try lia. simpl. auto.
        - destruct (Nat.eqb_spec j 0). lia. destruct (Nat.leb_spec 2 j), (Nat.ltb_spec j (2 +n length (aCoeff e))); try lia. simpl. auto.
        - destruct (Nat.eqb_spec j 0), ((2 <=? j) && (j <? 2 +n length (aCoeff e))); auto. }
      assert (FinA : isS e = false -> isA e = true -> forall i j, (i <= nq)%nat -> (j < nrow)%nat -> TT (upd A2 (k *n nrow +n ac k) (sA e)) i j = if i =? k then rs k j else TT A2 i j).
      { intros Hs Ha i j Hi Hj. rewrite (T_upd F nrow Hnr _ (nq +n 1)) by (auto; try lia; try apply Hal; auto). destruct (Nat.eqb_spec i k); auto. subst i. rewrite andb_true_l, Er, Hs, Ha. rewrite E2, Nat.eqb_refl by auto. destruct (Nat.eqb_spec j (ac k)).
        - destruct (Nat.eqb_spec j 0). lia. destruct (Nat.leb_spec 2 j), (Nat.ltb_spec j (2 +n length (aCoeff e))); try lia. simpl. auto.
        - destruct (Nat.eqb_spec j 0), ((2 <=? j) && (j <? 2 +n length (aCoeff e))); auto. }
      destruct (itype e) eqn:Et.
      * assert (Hs : isS e = true) by (unfold isS; rewrite Et; auto). rewrite Hs. apply wp_bind. apply wp_some. rewrite X1. apply wp_bind. apply wp_vset. apply Hsl; auto. replace (1 : F) with (sS e) by (unfold sS; rewrite Et; auto). destruct (isA e) eqn:Ha.
        -- rewrite X2. apply wp_vset. rewrite upd_length. apply Hal; auto. replace (- sS e) with (sA e) by (unfold sA, sS; rewrite Et; auto). apply Hend. rewrite !upd_length. auto. apply FinSA; auto.
        -- apply wp_some. apply Hend. rewrite upd_length. auto. apply FinS; auto.
      * assert (Hs : isS e = true) by (unfold isS; rewrite Et; auto). rewrite Hs. apply wp_bind. apply wp_some. rewrite X1. apply wp_bind. apply wp_vset. apply Hsl; auto. replace (- (1) : F) with (sS e) by (unfold sS; rewrite Et; auto). destruct (isA e) eqn:Ha.
        -- rewrite X2. apply wp_vset. rewrite upd_length. apply Hal; auto. replace (1 : F) with (sA e) by (unfold sA; rewrite Et; auto). apply Hend. rewrite !upd_length. auto. apply FinSA; auto.
        -- apply wp_some. apply Hend. rewrite upd_length. auto. apply FinS; auto.
      * assert (Hs : isS e = false) by (unfold isS; rewrite Et; auto). assert (Ha : isA e = true) by (unfold isA; rewrite Et; (assumption || reflexivity)). rewrite Ha. rewrite X2. apply wp_vset. apply Hal; auto.
        replace (if negb (oltb (erhs e) 0) then 1 else - (1)) with (sA e) by (unfold sA; rewrite Et; auto). apply Hend. rewrite !upd_length. auto. apply FinA; auto.
  - intros A' (L & E). split; auto.
Qed.

Lemma slack_ok : forall ms, smap isS ms -> wp (slack_basis nq nv ms) (fun mc => length mc = (nq +n 1)%nat /\ nth nq mc 0%nat = 1%nat /\ forall i, (i < nq)%nat -> nth i mc 0%nat = if isS (eqn i) then sc i else 0%nat).
Proof.
  intros ms (Lms & Ems). unfold slack_basis. replace (nq +n 1 -n 1)%nat with nq by lia. apply wp_bind. apply wp_vset. rewrite repeat_length. lia.
  apply wp_forn with (I := fun k mc => length mc = (nq +n 1)%nat /\ nth nq mc 0%nat = 1%nat /\ forall i, (i < nq)%nat -> nth i mc 0%nat = if (i <? k) && isS (eqn i) then sc i else 0%nat).
  - lia.
  - split. rewrite upd_length, repeat_length. auto. split. apply nth_upd_same. rewrite repeat_length. lia. intros. rewrite nth_upd_other by lia. apply nth_repeat.
  - intros k mc Hk (L & E1 & E). apply wp_bind. apply wp_vget with (d := None). lia. rewrite Ems by lia. destruct (isS (eqn k)) eqn:Hs.
    + apply wp_vset. lia. split. rewrite upd_length. auto. split. rewrite nth_upd_other by lia. auto. intros i Hi. rewrite nth_upd by lia. destruct (Nat.eq_dec k i).
      * subst. rewrite Hs. replace (i <? S i) with true by (symmetry; apply Nat.ltb_lt; lia). auto.
      * rewrite E by auto. destruct (Nat.ltb_spec i k), (Nat.ltb_spec i (S k)); auto; lia.
    + apply wp_some. split; auto. split; auto. intros i Hi. rewrite E by auto. destruct (Nat.ltb_spec i k), (Nat.ltb_spec i (S k)); auto; try lia. replace i with k by lia. rewrite Hs. auto.
  - intros mc (L & E1 & E). split; auto. split; auto. intros i Hi. rewrite E by auto. replace (i <? nq) with true by (symmetry; apply Nat.ltb_lt; lia). auto.
Qed.

(** The basis of the first phase. *)
Definition mc0 (i : nat) : nat := if isA (eqn i) then ac i else sc i.
Definition trg1 (A : list F) : Prop := TT A nq 0 = 0 /\ TT A nq 1 = 1 /\ (forall j, (2 <= j < 2 +n nv +n nS)%nat -> TT A nq j = 0) /\ (forall j, (2 +n nv +n nS <= j < nrow)%nat -> TT A nq j = 0 \/ TT A nq j = 1).

Lemma not_A_S : forall e, isA e = false -> isS e = true.
Proof. intros e H. unfold isA, isS in *. destruct (itype e); auto. Qed.

Lemma art_ok : forall ma A mc, smap isA ma -> length A = ((nq +n 1) *n nrow)%nat -> (forall i j, (i <= nq)%nat -> (j < nrow)%nat -> TT A i j = if i <? nq then rs i j else 0) ->
  length mc = (nq +n 1)%nat -> nth nq mc 0%nat = 1%nat -> (forall i, (i < nq)%nat -> nth i mc 0%nat = if isS (eqn i) then sc i else 0%nat) ->
  wp (art_basis eqs (nq +n 1) nrow nv nS ma A mc) (fun r => length (fst r) = ((nq +n 1) *n nrow)%nat /\ (forall i j, (i < nq)%nat -> (j < nrow)%nat -> TT (fst r) i j = rs i j) /\ trg1 (fst r) /\
    length (snd r) = (nq +n 1)%nat /\ nth nq (snd r) 0%nat = 1%nat /\ forall i, (i < nq)%nat -> nth i (snd r) 0%nat = mc0 i).
Proof.
  intros ma A mc (Lma & Ema) LA EA Lmc Emn Em. unfold art_basis. replace (nq +n 1 -n 1)%nat with nq by lia. pose proof (ix nq nrow Hnr nq 1 ltac:(lia) ltac:(lia)). apply wp_bind. apply wp_vset. lia.
  apply wp_forn with (I := fun k (r : list F * list nat) => length (fst r) = ((nq +n 1) *n nrow)%nat /\ (forall i j, (i < nq)%nat -> (j < nrow)%nat -> TT (fst r) i j = rs i j) /\ trg1 (fst r) /\
    length (snd r) = (nq +n 1)%nat /\ nth nq (snd r) 0%nat = 1%nat /\ forall i, (i < nq)%nat -> nth i (snd r) 0%nat = if i <? k then mc0 i else if isS (eqn i) then sc i else 0%nat).
  - lia.
  - simpl fst. simpl snd. split. rewrite upd_length. auto. split; [|split; [|auto]].
    + intros. rewrite (T_upd F nrow Hnr _ (nq +n 1)) by (auto; lia). destruct (Nat.eqb_spec i nq). lia. simpl. rewrite EA by lia. replace (i <? nq) with true by (symmetry; apply Nat.ltb_lt; lia). auto.
    + assert (Z : forall j, (j < nrow)%nat -> TT A nq j = 0). { intros. rewrite EA by lia. replace (nq <? nq) with false by (symmetry; apply Nat.ltb_ge; lia). auto. }
      split; [|split; [|split]].
      * rewrite (T_upd F nrow Hnr _ (nq +n 1)) by (auto; lia). rewrite Nat.eqb_refl. simpl. apply Z. lia.
      * rewrite (T_upd F nrow Hnr _ (nq +n 1)) by (auto; lia). rewrite Nat.eqb_refl. auto.
      * intros. rewrite (T_upd F nrow Hnr _ (nq +n 1)) by (auto; lia). destruct (Nat.eqb_spec j 1). lia. rewrite andb_false_r. apply Z. lia.
      * intros. left. rewrite (T_upd F nrow Hnr _ (nq +n 1)) by (auto; lia). destruct (Nat.eqb_spec j 1). lia. rewrite andb_false_r. apply Z. lia.
  - intros k (A1, mc1) Hk (L1 & R1 & Tr & Lm1 & En1 & Em1). simpl fst in *. simpl snd in *. apply wp_bind. apply wp_vget with (d := None). lia. rewrite Ema by lia. destruct (isA (eqn k)) eqn:Ha.
    + pose proof (ac_lt k ltac:(lia) Ha). fold (ac k). pose proof (ix nq nrow Hnr nq (ac k) ltac:(lia) ltac:(lia)). apply wp_bind. apply wp_vset. lia. apply wp_bind. apply wp_vset. lia. apply wp_some. simpl fst. simpl snd.
      split. rewrite upd_length. auto. split; [|split; [|split; [|split]]].
      * intros. rewrite (T_upd F nrow Hnr _ (nq +n 1)) by (auto; lia). destruct (Nat.eqb_spec i nq). lia. simpl. apply R1; auto.
      * destruct Tr as (T0' & T1 & T2 & T3). assert (Hac : (2 +n nv +n nS <= ac k)%nat) by (unfold ac; lia). split; [|split; [|split]].
        -- rewrite (T_upd F nrow Hnr _ (nq +n 1)) by (auto; lia). destruct (Nat.eqb_spec 0 (ac k)). lia. rewrite andb_false_r. auto.
        -- rewrite (T_upd F nrow Hnr _ (nq +n 1)) by (auto; lia). destruct (Nat.eqb_spec 1 (ac k)). lia. rewrite andb_false_r. auto.
        -- intros. rewrite (T_upd F nrow Hnr _ (nq +n 1)) by (auto; lia). destruct (Nat.eqb_spec j (ac k)). lia. rewrite andb_false_r. auto.
        -- intros. rewrite (T_upd F nrow Hnr _ (nq +n 1)) by (auto; lia). destruct ((nq =? nq) && (j =? ac k)); auto.
      * rewrite upd_length. auto.
      * rewrite nth_upd_other by lia. auto.
      * intros i Hi. rewrite nth_upd by lia. destruct (Nat.eq_dec k i).
        -- subst. replace (i <? S i) with true by (symmetry; apply Nat.ltb_lt; lia). unfold mc0. rewrite Ha. auto.
        -- rewrite Em1 by auto. destruct (Nat.ltb_spec i k), (Nat.ltb_spec i (S k)); auto; lia.
    + apply wp_some. simpl fst. simpl snd. split; auto. split; auto. split; auto. split; auto. split; auto. intros i Hi. rewrite Em1 by auto. destruct (Nat.ltb_spec i k), (Nat.ltb_spec i (S k)); auto; try lia.
      replace i with k by lia. unfold mc0. rewrite Ha, (not_A_S _ Ha). auto.
  - intros (A1, mc1) (L1 & R1 & Tr & Lm1 & En1 & Em1). simpl fst in *. simpl snd in *. split; auto. split; auto. split; auto. split; auto. split; auto. intros i Hi. rewrite Em1 by auto. replace (i <? nq) with true by (symmetry; apply Nat.ltb_lt; lia). auto.
Qed.

Definition sg (i : nat) : F := if oltb (rs i (mc0 i)) 0 then - (1) else 1.

Lemma mc0_rng : forall i, (i < nq)%nat -> (2 +n nv <= mc0 i < nrow)%nat.
Proof. intros. unfold mc0. destruct (isA (eqn i)) eqn:Ha. pose proof (ac_lt i H Ha). unfold ac in *. lia. pose proof (sc_lt i H (not_A_S _ Ha)). unfold sc in *. lia. Qed.

Lemma flip_ok : forall A mc, length A = ((nq +n 1) *n nrow)%nat -> (forall i j, (i < nq)%nat -> (j < nrow)%nat -> TT A i j = rs i j) -> TT A nq 1 = 1 ->
  length mc = (nq +n 1)%nat -> nth nq mc 0%nat = 1%nat -> (forall i, (i < nq)%nat -> nth i mc 0%nat = mc0 i) ->
  wp (flip_rows (nq +n 1) nrow mc A) (fun A' => length A' = ((nq +n 1) *n nrow)%nat /\ (forall i j, (i < nq)%nat -> (j < nrow)%nat -> TT A' i j = sg i * rs i j) /\ (forall j, (j < nrow)%nat -> TT A' nq j = TT A nq j)).
Proof.
  intros A mc LA EA E1 Lm En Em. unfold flip_rows.
  apply wp_forn with (I := fun k A' => length A' = ((nq +n 1) *n nrow)%nat /\ (forall i j, (i < nq)%nat -> (j < nrow)%nat -> TT A' i j = if i <? k then sg i * rs i j else rs i j) /\ (forall j, (j < nrow)%nat -> TT A' nq j = TT A nq j)).
  - lia.
  - auto.
  - intros k A1 Hk (L1 & R1 & N1). apply wp_bind. apply wp_vget with (d := 0%nat). lia. destruct (Nat.eq_dec k nq).
    + subst k. rewrite En. pose proof (ix nq nrow Hnr nq 1 ltac:(lia) ltac:(lia)). apply wp_bind. apply wp_vget with (d := 0). lia. fold (T F nrow A1 nq 1). rewrite N1, E1 by lia. pose proof (lt_le F _ _ (lt_01 F)) as X. unfold le in X. rewrite X.
      apply wp_some. split; auto. split; auto. intros. rewrite R1 by auto. destruct (Nat.ltb_spec i nq), (Nat.ltb_spec i (S nq)); auto; lia.
    + rewrite Em by lia. pose proof (mc0_rng k ltac:(lia)). pose proof (ix nq nrow Hnr k (mc0 k) ltac:(lia) ltac:(lia)). apply wp_bind. apply wp_vget with (d := 0). lia. fold (T F nrow A1 k (mc0 k)). rewrite R1 by lia.
      replace (k <? k) with false by (symmetry; apply Nat.ltb_ge; lia). destruct (oltb (rs k (mc0 k)) 0) eqn:Es.
      * apply wp_forn with (I := fun m A' => length A' = ((nq +n 1) *n nrow)%nat /\ (forall i j, (i <= nq)%nat -> (j < nrow)%nat -> TT A' i j = if (i =? k) && (j <? m) then - TT A1 i j else TT A1 i j)).
        -- lia.
        -- split; auto. intros. rewrite andb_false_r. auto.
        -- intros m A2 Hm (L2 & E2). pose proof (ix nq nrow Hnr k m ltac:(lia) ltac:(lia)). apply (wp_vmod _ (0 : F)). lia. split. rewrite upd_length. auto. intros i j Hi Hj. rewrite (T_upd F nrow Hnr _ (nq +n 1)) by (auto; lia).
           fold (T F nrow A2 k m). rewrite !E2 by lia. rewrite Nat.eqb_refl. replace (m <? m) with false by (symmetry; apply Nat.ltb_ge; lia). rewrite andb_false_r. destruct (Nat.eqb_spec i k); auto. rewrite !andb_true_l. subst.
           destruct (Nat.eqb_spec j m). subst. replace (m <? S m) with true by (symmetry; apply Nat.ltb_lt; lia). auto. destruct (Nat.ltb_spec j m), (Nat.ltb_spec j (S m)); auto; lia.
        -- intros A2 (L2 & E2). split; auto. split.
           ++ intros i j Hi Hj. rewrite E2 by lia. replace (j <? nrow) with true by (symmetry; apply Nat.ltb_lt; lia). rewrite andb_true_r. rewrite R1 by auto. destruct (Nat.eqb_spec i k).
              ** subst. replace (k <? k) with false by (symmetry; apply Nat.ltb_ge; lia). replace (k <? S k) with true by (symmetry; apply Nat.ltb_lt; lia). unfold sg. rewrite Es. ring.
              ** destruct (Nat.ltb_spec i k), (Nat.ltb_spec i (S k)); auto; lia.
           ++ intros j Hj. rewrite E2 by lia. destruct (Nat.eqb_spec nq k). lia. simpl. apply N1. auto.
      * apply wp_some. split; auto. split; auto. intros i j Hi Hj. rewrite R1 by auto. destruct (Nat.ltb_spec i k), (Nat.ltb_spec i (S k)); auto; try lia. replace i with k by lia. unfold sg. rewrite Es. ring.
  - intros A' (L & R & N). split; auto. split; auto. intros i j Hi Hj. rewrite R by auto. replace (i <? nq +n 1) with true by (symmetry; apply Nat.ltb_lt; lia). auto.
Qed.

(** Entries of the basis. *)
Lemma rs_sc : forall i i', (i < nq)%nat -> (i' < nq)%nat -> isS (eqn i) = true -> rs i' (sc i) = if i' =? i then sS (eqn i) else 0.
Proof.
  intros i i' Hi Hi' Hs. unfold rs. pose proof (len_nv i' Hi'). pose proof (sc_lt i Hi Hs). destruct (Nat.eqb_spec (sc i) 0). unfold sc in *; lia. destruct (Nat.ltb_spec (sc i) (2 +n length (aCoeff (eqn i')))). unfold sc in *; lia. rewrite andb_false_r.
  destruct (Nat.eqb_spec i' i) as [->|Hne]. rewrite Hs, Nat.eqb_refl. auto. destruct (isS (eqn i')) eqn:Hs'; rewrite ?andb_true_l, ?andb_false_l, ?andb_true_r, ?andb_false_r; cbv iota.
  - destruct (Nat.eqb_spec (sc i) (sc i')). exfalso. apply Hne. apply (cnt_inj isS); auto. unfold sc in e. lia. destruct (Nat.eqb_spec (sc i) (ac i')). unfold ac in *. lia. rewrite andb_false_r. auto.
  - destruct (Nat.eqb_spec (sc i) (ac i')). unfold ac in *. lia. rewrite andb_false_r. auto.
Qed.
Lemma rs_ac : forall i i', (i < nq)%nat -> (i' < nq)%nat -> isA (eqn i) = true -> rs i' (ac i) = if i' =? i then sA (eqn i) else 0.
Proof.
  intros i i' Hi Hi' Hs. unfold rs. pose proof (len_nv i' Hi'). pose proof (ac_lt i Hi Hs). destruct (Nat.eqb_spec (ac i) 0). unfold ac in *; lia. destruct (Nat.ltb_spec (ac i) (2 +n length (aCoeff (eqn i')))). unfold ac in *; lia. rewrite andb_false_r.
  assert (E : isS (eqn i') && (ac i =? sc i') = false). { destruct (isS (eqn i')) eqn:Hs'; auto. pose proof (sc_lt i' Hi' Hs'). destruct (Nat.eqb_spec (ac i) (sc i')); auto. unfold ac in e. lia. } rewrite E.
  destruct (Nat.eqb_spec i' i) as [->|Hne]. rewrite Hs, Nat.eqb_refl. auto. destruct (isA (eqn i')) eqn:Hs'; rewrite ?andb_true_l, ?andb_false_l, ?andb_true_r, ?andb_false_r; cbv iota; auto. destruct (Nat.eqb_spec (ac i) (ac i')); auto. exfalso. apply Hne. apply (cnt_inj isA); auto. unfold ac in e. lia.
Qed.
Lemma rs_1 : forall i, (i < nq)%nat -> rs i 1 = 0.
Proof.
  intros. unfold rs. simpl. destruct (Nat.eqb_spec 1 (sc i)). unfold sc in *. lia. destruct (Nat.eqb_spec 1 (ac i)). unfold ac in *. lia. rewrite !andb_false_r. auto.
Qed.
Lemma rs_mc0 : forall i i', (i < nq)%nat -> (i' < nq)%nat -> rs i' (mc0 i) = if i' =? i then (if isA (eqn i) then sA (eqn i) else sS (eqn i)) else 0.
Proof. intros. unfold mc0. destruct (isA (eqn i)) eqn:Ha. apply rs_ac; auto. apply rs_sc; auto. apply not_A_S. auto. Qed.
Lemma pm_cases : forall i, (if isA (eqn i) then sA (eqn i) else sS (eqn i)) = 1 \/ (if isA (eqn i) then sA (eqn i) else sS (eqn i)) = - (1).
Proof. intros. unfold isA, sA, sS. destruct (itype (eqn i)). destruct (oltb (erhs (eqn i)) 0); auto. destruct (oltb 0 (erhs (eqn i))); auto. destruct (oltb (erhs (eqn i)) 0); simpl; auto. Qed.
Lemma sg_val : forall i, (i < nq)%nat -> sg i = if isA (eqn i) then sA (eqn i) else sS (eqn i).
Proof.
  intros i Hi. unfold sg. rewrite rs_mc0, Nat.eqb_refl by auto. destruct (pm_cases i) as [E|E]; rewrite E. pose proof (lt_le F _ _ (lt_01 F)) as X. unfold le in X. rewrite X. auto.
  pose proof (neg_one F) as X. unfold lt in X. rewrite X. auto.
Qed.
Lemma sg_sq : forall i, (i < nq)%nat -> sg i * sg i = 1.
Proof. intros. rewrite sg_val by auto. destruct (pm_cases i) as [E|E]; rewrite E; ring. Qed.
Lemma sg_rhs : forall i, (i < nq)%nat -> le 0 (sg i * erhs (eqn i)).
Proof.
  intros i Hi. rewrite sg_val by auto. unfold isA, sA, sS. destruct (itype (eqn i)).
  - destruct (oltb (erhs (eqn i)) 0) eqn:E. apply lt_le. replace (- (1) * erhs (eqn i)) with (- erhs (eqn i)) by ring. apply lt_opp. auto. replace (1 * erhs (eqn i)) with (erhs (eqn i)) by ring. auto.
  - destruct (oltb 0 (erhs (eqn i))) eqn:E. replace (1 * erhs (eqn i)) with (erhs (eqn i)) by ring. apply lt_le. auto. replace (- (1) * erhs (eqn i)) with (- erhs (eqn i)) by ring. apply (proj1 (le_opp F _)). auto.
  - destruct (oltb (erhs (eqn i)) 0) eqn:E; simpl. apply lt_le. replace (- (1) * erhs (eqn i)) with (- erhs (eqn i)) by ring. apply lt_opp. auto. replace (1 * erhs (eqn i)) with (erhs (eqn i)) by ring. auto.
Qed.

Lemma init_basis : forall A mc, length A = ((nq +n 1) *n nrow)%nat -> (forall i j, (i < nq)%nat -> (j < nrow)%nat -> TT A i j = sg i * rs i j) ->
  length mc = (nq +n 1)%nat -> nth nq mc 0%nat = 1%nat -> (forall i, (i < nq)%nat -> nth i mc 0%nat = mc0 i) -> basis F nq nrow A mc.
Proof.
  intros A mc LA EA Lm En Em. split; auto.
  - intros i Hi. destruct (Nat.eq_dec i nq) as [->|]. lia. rewrite Em by lia. pose proof (mc0_rng i ltac:(lia)). lia.
  - intros i i' Hi Hi'. destruct (Nat.eq_dec i nq) as [->|].
    + rewrite En, EA, rs_1 by lia. destruct (Nat.eqb_spec i' nq). lia. ring.
    + rewrite Em by lia. pose proof (mc0_rng i ltac:(lia)). rewrite EA, rs_mc0 by lia. destruct (Nat.eqb_spec i' i) as [->|]. rewrite <- sg_val by lia. apply sg_sq. lia. ring.
  - intros i Hi. rewrite EA by lia. apply sg_rhs. auto.
Qed.

(** The value of a row. *)
Lemma Lf_rs : forall i (x : nat -> F), (i < nq)%nat -> Lf F nrow (rs i) x =
  sumn (length (aCoeff (eqn i))) (fun k => nth k (aCoeff (eqn i)) 0 * x (2 +n k)%nat) + (if isS (eqn i) then sS (eqn i) * x (sc i) else 0) + (if isA (eqn i) then sA (eqn i) * x (ac i) else 0).
Proof.
  intros i x Hi. pose proof (len_nv i Hi) as Hl. set (len := length (aCoeff (eqn i))) in *. unfold Lf.
  transitivity (sumn (nrow -n 1) (fun j => ((if (1 <=? j) && (j <? 1 +n len) then nth (j -n 1) (aCoeff (eqn i)) 0 * x (S j) else 0) + (if j =? (sc i -n 1) then (if isS (eqn i) then sS (eqn i) * x (S j) else 0) else 0)) + (if j =? (ac i -n 1) then (if isA (eqn i) then sA (eqn i) * x (S j) else 0) else 0))).
  - apply sumn_ext. intros j Hj. unfold rs. fold len. simpl (S j =? 0). cbv iota. replace (2 <=? S j) with (1 <=? j) by (destruct j; auto). replace (S j <? 2 +n len) with (j <? 1 +n len) by (destruct (Nat.ltb_spec j (1 +n len)), (Nat.ltb_spec (S j) (2 +n len)); auto; lia).
    replace (S j -n 2)%nat with (j -n 1)%nat by lia. replace (S j =? sc i) with (j =? sc i -n 1) by (destruct (Nat.eqb_spec j (sc i -n 1)), (Nat.eqb_spec (S j) (sc i)); auto; unfold sc in *; lia).
    replace (S j =? ac i) with (j =? ac i -n 1) by (destruct (Nat.eqb_spec j (ac i -n 1)), (Nat.eqb_spec (S j) (ac i)); auto; unfold ac in *; lia).
    assert (Hac : isS (eqn i) = true -> (sc i < ac i)%nat). { intros Hs. pose proof (sc_lt i Hi Hs). unfold ac. lia. }
    destruct (Nat.leb_spec 1 j), (Nat.ltb_spec j (1 +n len)); rewrite ?andb_true_l, ?andb_false_l, ?andb_true_r, ?andb_false_r; cbv iota.
    + destruct (Nat.eqb_spec j (sc i -n 1)). unfold sc in *; lia. destruct (Nat.eqb_spec j (ac i -n 1)). unfold ac in *; lia. ring.
    + destruct (Nat.eqb_spec j (sc i -n 1)), (Nat.eqb_spec j (ac i -n 1)); destruct (isS (eqn i)), (isA (eqn i)); rewrite ?andb_true_l, ?andb_false_l, ?andb_true_r, ?andb_false_r; cbv iota; try ring. specialize (Hac eq_refl). unfold sc, ac in *. lia.
    + destruct (Nat.eqb_spec j (sc i -n 1)). unfold sc in *; lia. destruct (Nat.eqb_spec j (ac i -n 1)). unfold ac in *; lia. rewrite !andb_false_r. ring.
    + lia.
  - rewrite !sumn_add. f_equal; [f_equal|].
    + replace (nrow -n 1)%nat with (S (nrow -n 2)) by lia. rewrite sumn_S_l. replace ((1 <=? 0) && (0 <? 1 +n len)) with false by auto. rewrite (sumn_le_trunc F len). 2: lia. 2: { intros k Hk. destruct (Nat.ltb_spec (S k) (1 +n len)). lia. rewrite andb_false_r. auto. }
      cbv iota. transitivity (0 + sumn len (fun k => nth k (aCoeff (eqn i)) 0 * x (2 +n k)%nat)). 2: ring. f_equal. apply sumn_ext.
      intros k Hk. destruct (Nat.leb_spec 1 (S k)), (Nat.ltb_spec (S k) (1 +n len)); try lia. rewrite ?andb_true_l, ?andb_false_l, ?andb_true_r, ?andb_false_r. cbv iota. replace (S k -n 1)%nat with k by lia. auto.
    + destruct (isS (eqn i)) eqn:Hs.
      * pose proof (sc_lt i Hi Hs). rewrite (sumn_pick _ _ (sc i -n 1) (fun j => sS (eqn i) * x (S j))) by lia. replace (S (sc i -n 1)) with (sc i) by (unfold sc; lia). auto.
      * apply sumn_zero. intros. destruct (i0 =? sc i -n 1); auto.
    + destruct (isA (eqn i)) eqn:Hs.
      * pose proof (ac_lt i Hi Hs). rewrite (sumn_pick _ _ (ac i -n 1) (fun j => sA (eqn i) * x (S j))) by lia. replace (S (ac i -n 1)) with (ac i) by (unfold ac; lia). auto.
      * apply sumn_zero. intros. destruct (i0 =? ac i -n 1); auto.
Qed.

(** Feasible points are the non-negative solutions of the table with vanishing artificial variables. *)
Lemma init_link : forall v, length v = nv -> (feasible eqs v <-> exists x : nat -> F,
  (forall i, (i < nq)%nat -> Eq F nrow (rs i) x) /\ (forall j, (2 <= j < nrow)%nat -> le 0 (x j)) /\ (forall j, (2 +n nv +n nS <= j)%nat -> x j = 0) /\ x 1%nat = 0 /\ (forall k, (k < nv)%nat -> x (2 +n k)%nat = nth k v 0)).
Proof.
  intros v Lv.
  assert (Hform : forall i (x : nat -> F), (i < nq)%nat -> (forall k, (k < nv)%nat -> x (2 +n k)%nat = nth k v 0) -> sumn (length (aCoeff (eqn i))) (fun k => nth k (aCoeff (eqn i)) 0 * x (2 +n k)%nat) = form (aCoeff (eqn i)) v).
  { intros i x Hi Hx. unfold form. apply sumn_ext. intros k Hk. pose proof (len_nv i Hi). rewrite Hx by lia. auto. }
  split.
  - intros (_ & Hpos & Hh).
    set (slk := fun j => match find (fun i => isS (eqn i) && (sc i =? j)) (seq 0 nq) with Some i => sS (eqn i) * (erhs (eqn i) - form (aCoeff (eqn i)) v) | None => 0 end).
    exists (fun j => if j <? 2 then 0 else if j <? 2 +n nv then nth (j -n 2) v 0 else slk j).
    assert (Sl : forall i, (i < nq)%nat -> isS (eqn i) = true -> slk (sc i) = sS (eqn i) * (erhs (eqn i) - form (aCoeff (eqn i)) v)).
    { intros i Hi Hs. unfold slk. destruct (find _ _) as [i'|] eqn:E. apply find_some in E. destruct E as (E1 & E2). apply in_seq in E1. apply andb_true_iff in E2. destruct E2 as (E2 & E3). apply Nat.eqb_eq in E3. replace i' with i; auto. apply (cnt_inj isS); auto; try lia. unfold sc in E3. lia.
      exfalso. pose proof (find_none _ _ E i ltac:(apply in_seq; lia)) as X. simpl in X. rewrite Hs, Nat.eqb_refl in X. discriminate. }
    assert (Sp : forall j, le 0 (slk j)).
    { intros j. unfold slk. destruct (find _ _) as [i|] eqn:E; [|apply le_refl]. apply find_some in E. destruct E as (E1 & E2). apply in_seq in E1. pose proof (Hh (eqn i)) as Hhi. unfold holds in Hhi. unfold sS.
      assert (In (eqn i) eqs) by (apply nth_In; lia). specialize (Hhi H). destruct (itype (eqn i)).
      - replace (1 * (erhs (eqn i) - form (aCoeff (eqn i)) v)) with (erhs (eqn i) - form (aCoeff (eqn i)) v) by ring. apply (proj1 (le_sub F _ _)). auto.
      - replace (- (1) * (erhs (eqn i) - form (aCoeff (eqn i)) v)) with (form (aCoeff (eqn i)) v - erhs (eqn i)) by ring. apply (proj1 (le_sub F _ _)). auto.
      - replace (0 * (erhs (eqn i) - form (aCoeff (eqn i)) v)) with (0 : F) by ring. apply le_refl. }
    assert (Sz : forall j, (2 +n nv +n nS <= j)%nat -> slk j = 0).
    { intros j Hj. unfold slk. destruct (find _ _) as [i|] eqn:E; auto. apply find_some in E. destruct E as (E1 & E2). apply in_seq in E1. apply andb_true_iff in E2. destruct E2 as (E2 & E3). apply Nat.eqb_eq in E3. pose proof (sc_lt i ltac:(lia) E2). lia. }
    set (x := fun j => if j <? 2 then 0 else if j <? 2 +n nv then nth (j -n 2) v 0 else slk j).
    assert (Xv : forall k, (k < nv)%nat -> x (2 +n k)%nat = nth k v 0). { intros k Hk. unfold x. destruct (Nat.ltb_spec (2 +n k) 2), (Nat.ltb_spec (2 +n k) (2 +n nv)); try lia. f_equal. lia. }
    assert (Xs : forall j, (2 +n nv <= j)%nat -> x j = slk j). { intros j Hj. unfold x. destruct (Nat.ltb_spec j 2), (Nat.ltb_spec j (2 +n nv)); try lia. auto. }
    split; [|split; [|split; [|split]]]; auto.
    + intros i Hi. unfold Eq. rewrite Lf_rs by auto. rewrite (Hform i x Hi Xv). change (rs i 0) with (erhs (eqn i)).
      assert (Ha : (if isA (eqn i) then sA (eqn i) * x (ac i) else 0) = 0). { destruct (isA (eqn i)); auto. rewrite Xs, Sz by (unfold ac; lia). ring. } rewrite Ha.
      destruct (isS (eqn i)) eqn:Hs.
      * rewrite Xs by (unfold sc; lia). rewrite Sl by auto. assert (E : sS (eqn i) * sS (eqn i) = 1). { unfold sS, isS in *. destruct (itype (eqn i)); try discriminate; ring. }
        replace (sS (eqn i) * (sS (eqn i) * (erhs (eqn i) - form (aCoeff (eqn i)) v))) with ((sS (eqn i) * sS (eqn i)) * (erhs (eqn i) - form (aCoeff (eqn i)) v)) by ring. rewrite E. ring.
      * pose proof (Hh (eqn i) ltac:(apply nth_In; lia)) as Hhi. unfold holds, isS in *. destruct (itype (eqn i)); try discriminate. rewrite Hhi. ring.
    + intros j Hj. unfold x. destruct (Nat.ltb_spec j 2). lia. destruct (Nat.ltb_spec j (2 +n nv)); auto. apply Hpos. apply nth_In. lia.
    + intros j Hj. fold (x j). rewrite Xs by lia. auto.
  - intros (x & Hr & Hx & Hz & _ & Hv). split; auto. split.
    + intros y Hy. apply (In_nth _ _ 0) in Hy. destruct Hy as (k & Hk & <-). rewrite <- Hv by lia. apply Hx. lia.
    + intros e He. apply (In_nth _ _ (mkEq [] 0 LE)) in He. destruct He as (i & Hi & <-). fold (eqn i). specialize (Hr i Hi). unfold Eq in Hr. rewrite Lf_rs in Hr by auto. rewrite (Hform i x Hi Hv) in Hr. change (rs i 0) with (erhs (eqn i)) in Hr.
      assert (Ha : (if isA (eqn i) then sA (eqn i) * x (ac i) else 0) = 0). { destruct (isA (eqn i)); auto. rewrite Hz by (unfold ac; lia). ring. } rewrite Ha in Hr. unfold holds.
      assert (Hp : isS (eqn i) = true -> le 0 (x (sc i))). { intros Hs. pose proof (sc_lt i Hi Hs). apply Hx. unfold sc in *. lia. } unfold isS, sS in *. destruct (itype (eqn i)).
      * rewrite <- Hr. apply (proj2 (le_sub F _ _)). replace (form (aCoeff (eqn i)) v + 1 * x (sc i) + 0 - form (aCoeff (eqn i)) v) with (x (sc i)) by ring. auto.
      * rewrite <- Hr. apply (proj2 (le_sub F _ _)). replace (form (aCoeff (eqn i)) v - (form (aCoeff (eqn i)) v + - (1) * x (sc i) + 0)) with (x (sc i)) by ring. auto.
      * rewrite <- Hr. ring.
Qed.
End Nrow.
End P.
