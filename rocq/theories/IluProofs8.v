(** Proofs for IluProps.v: Initialize_ILUk, the linked list of one row. *)
From Coq Require Import List Arith Bool Lia ZArith Ring Permutation Sorted.
Import ListNotations.
From Verif Require Import Imp Alg SpModel SpSpec IluModel IluSpec IluProofs1 IluProofs5 IluProofs6 IluProofs7.
Open Scope nat_scope.

Definition dr : rln := mkR 0 0 None.
Definition R (l : list rln) (k : nat) : nat := row (nth k l dr).
Definition lv (l : list rln) (k : nat) : nat := lev (nth k l dr).
(** The nodes that follow a pointer. *)
Inductive seg (l : list rln) : option nat -> list nat -> Prop :=
| seg_nil : seg l None []
| seg_cons : forall k ks, k < length l -> seg l (next (nth k l dr)) ks -> seg l (Some k) (k :: ks).

Lemma seg_lt : forall l o ks, seg l o ks -> forall k, In k ks -> k < length l.
Proof. induction 1; intros q Hq; [destruct Hq|]. destruct Hq as [<-|Hq]; auto. Qed.
Lemma seg_hd : forall l o ks, seg l o ks -> o = match ks with [] => None | q :: _ => Some q end.
Proof. destruct 1; auto. Qed.
Lemma seg_at : forall l A o c B, seg l o (A ++ c :: B) -> c < length l /\ seg l (next (nth c l dr)) B.
Proof. induction A; cbn; intros o c B H; inversion H; subst; auto. eapply IHA; eauto. Qed.
Lemma seg_next : forall l A o c B, seg l o (A ++ c :: B) -> next (nth c l dr) = match B with [] => None | q :: _ => Some q end.
Proof. intros l A o c B H. apply seg_at in H. destruct H as (_ & H). apply seg_hd in H. auto. Qed.
Lemma seg_ext : forall l l' o ks, seg l o ks -> length l <= length l' -> (forall k, In k ks -> nth k l' dr = nth k l dr) -> seg l' o ks.
Proof. induction 1; intros L H'; constructor; [lia|]. rewrite H' by (left; auto). apply IHseg; auto. intros; apply H'; right; auto. Qed.

(** Insertion of a node behind node c. *)
Definition inserted (l : list rln) (c j v : nat) : list rln := upd (l ++ [mkR j v (next (nth c l dr))]) c (mkR (R l c) (lev (nth c l dr)) (Some (length l))).
Lemma ins_len : forall l c j v, length (inserted l c j v) = S (length l).
Proof. intros. unfold inserted. lens. cbn. lia. Qed.
Lemma ins_other : forall l c j v k, k < length l -> k <> c -> nth k (inserted l c j v) dr = nth k l dr.
Proof. intros. unfold inserted. rewrite nth_upd_other by auto. apply app_nth1. auto. Qed.
Lemma ins_c : forall l c j v, c < length l -> nth c (inserted l c j v) dr = mkR (R l c) (lev (nth c l dr)) (Some (length l)).
Proof. intros. unfold inserted. rewrite nth_upd_same by (lens; lia). auto. Qed.
Lemma ins_new : forall l c j v, c < length l -> nth (length l) (inserted l c j v) dr = mkR j v (next (nth c l dr)).
Proof. intros. unfold inserted. rewrite nth_upd_other by lia. rewrite app_nth2 by lia. rewrite Nat.sub_diag. auto. Qed.
Lemma seg_insert : forall l c j v A o B, seg l o (A ++ c :: B) -> NoDup (A ++ c :: B) -> seg (inserted l c j v) o (A ++ c :: length l :: B).
Proof.
  intros l c j v. induction A; cbn; intros o B H HN.
  - inversion H; subst. inversion HN; subst. constructor; [rewrite ins_len; lia|]. rewrite ins_c by auto. cbn [next]. constructor; [rewrite ins_len; lia|]. rewrite ins_new by auto. cbn [next].
    eapply seg_ext; [eauto|rewrite ins_len; lia|]. intros k Hk. apply ins_other; [eapply seg_lt; eauto|]. intros ->. auto.
  - inversion H; subst. inversion HN; subst. constructor; [rewrite ins_len; lia|]. rewrite ins_other; auto. intros ->. apply H2. apply in_or_app. right. left. auto.
Qed.
Lemma ins_R : forall l c j v k, c < length l -> k < length l -> R (inserted l c j v) k = R l k /\ lev (nth k (inserted l c j v) dr) = lev (nth k l dr).
Proof. intros. unfold R. destruct (Nat.eq_dec k c) as [->|]; [rewrite ins_c by auto; auto|]. rewrite ins_other by auto. auto. Qed.
Lemma sorted_insert : forall X a j Y, StronglySorted lt (X ++ a :: Y) -> a < j -> Forall (lt j) Y -> StronglySorted lt (X ++ a :: j :: Y).
Proof.
  induction X; cbn; intros b j Y H Hb HY; inversion H; subst.
  - constructor; [constructor; auto|]. constructor; auto.
  - constructor; [apply IHX; auto|]. apply Forall_forall. intros y Hy. apply in_app_or in Hy. pose proof (proj1 (Forall_forall _ _) H3) as Hf.
    destruct Hy as [Hy|[<-|[<-|Hy]]]; [apply Hf; apply in_or_app; auto|apply Hf; apply in_or_app; right; left; auto| |apply Hf; apply in_or_app; right; right; auto].
    assert (a < b) by (apply Hf; apply in_or_app; right; left; auto). lia.
Qed.
Lemma ss_lt_nodup : forall l, StronglySorted lt l -> NoDup l.
Proof. induction 1; constructor; auto. intros C. pose proof (proj1 (Forall_forall _ _) H0 a C). lia. Qed.
Lemma ss_app : forall X a Y, StronglySorted lt (X ++ a :: Y) -> Forall (fun x => x < a) X /\ Forall (lt a) Y.
Proof.
  induction X; cbn; intros b Y H; inversion H; subst; [split; auto|]. destruct (IHX _ _ H2) as (H4 & H5). split; auto. constructor; auto.
  apply (proj1 (Forall_forall _ _) H3). apply in_or_app. right. left. auto.
Qed.

Section L.
Variables (nblk i : nat).
Hypothesis Hi : i < nblk.
Definition chainok (l : list rln) (ks : list nat) : Prop :=
  seg l (Some 0) ks /\ StronglySorted lt (map (R l) ks) /\ length ks = length l /\ (forall k, In k ks -> R l k < nblk /\ R l k <> i).
Lemma chain_small : forall l ks, chainok l ks -> length l < nblk.
Proof.
  intros l ks (_ & HS & HL & HB). rewrite <- HL. assert (HN : NoDup (i :: map (R l) ks)).
  { constructor; [|apply ss_lt_nodup; auto]. intros C. apply in_map_iff in C. destruct C as (k & E & Hk). apply HB in Hk. lia. }
  assert (HI : incl (i :: map (R l) ks) (seq 0 nblk)). { intros x [<-|Hx]; apply in_seq; [lia|]. apply in_map_iff in Hx. destruct Hx as (k & <- & Hk). apply HB in Hk. lia. }
  pose proof (NoDup_incl_length HN HI) as HLe. cbn [length] in HLe. rewrite map_length, seq_length in HLe. lia.
Qed.
Lemma nodup_ks : forall l ks, chainok l ks -> NoDup ks.
Proof. intros l ks (_ & HS & _). apply ss_lt_nodup in HS. apply NoDup_map_inv in HS. auto. Qed.

Lemma find_place_ok : forall l ks A c B j, chainok l ks -> ks = A ++ c :: B -> R l c < j ->
  wp (find_place (S nblk) nblk l c j) (fun '(c', fill) => exists M B', c :: B = M ++ c' :: B' /\ R l c' < j /\ (if fill : bool then Forall (fun k => j < R l k) B' else In j (map (R l) ks))).
Proof.
  intros l ks A c B j HC Hks Hc. pose proof HC as (Hseg & HS & HL & HB). pose proof (chain_small l ks HC) as Hsm. unfold find_place.
  apply (wp_loopf _ (fun '(q, _) => nblk - R l q) (fun '(q, fill) => fill = false /\ R l q < j /\ exists M B', c :: B = M ++ q :: B')).
  - lia.
  - split; auto. split; auto. exists [], B. auto.
  - intros (q & fill) (-> & Hq & M & B' & EM).
    assert (Eks : ks = (A ++ M) ++ q :: B') by (rewrite <- app_assoc; rewrite <- EM; auto).
    assert (Hsq : seg l (Some 0) ((A ++ M) ++ q :: B')) by (rewrite <- Eks; auto).
    pose proof (seg_at _ _ _ _ _ Hsq) as (Hql & _). rewrite (vget_nth _ dr) by auto. cbn [bind]. rewrite (seg_next _ _ _ _ _ Hsq).
    destruct B' as [|p B'].
    + apply wp_some. cbn [fst snd]. exists M, []. split; auto.
    + assert (Hpk : In p ks) by (rewrite Eks; apply in_or_app; right; right; left; auto). assert (Hpl : p < length l) by (exact (seg_lt _ _ _ Hseg p Hpk)).
      rewrite (proj2 (Nat.ltb_lt p nblk)) by lia. cbn [assertb bind]. rewrite (vget_nth _ dr) by auto. cbn [bind]. fold (R l p).
      assert (HSq : StronglySorted lt (map (R l) (A ++ M) ++ R l q :: R l p :: map (R l) B')) by (rewrite Eks, map_app in HS; auto).
      destruct (Nat.ltb_spec j (R l p)) as [Hlt|Hge].
      * apply wp_some. cbn [fst snd]. exists M, (p :: B'). split; auto. split; auto. constructor; auto.
        assert (HS2 : StronglySorted lt ((map (R l) (A ++ M) ++ [R l q]) ++ R l p :: map (R l) B')) by (rewrite <- app_assoc; auto).
        apply ss_app in HS2. destruct HS2 as (_ & HF). apply Forall_forall. intros k Hk. pose proof (proj1 (Forall_forall _ _) HF (R l k) (in_map _ _ _ Hk)). lia.
      * destruct (Nat.eqb_spec (R l p) j) as [Ej|Nj].
        -- apply wp_some. cbn [fst snd]. exists M, (p :: B'). split; auto. split; auto. rewrite <- Ej. apply in_map. auto.
        -- rewrite (proj2 (Nat.ltb_lt (R l p) j)) by lia. cbn [assertb bind]. apply wp_some. cbn [fst snd]. split.
           ++ split; auto. split; [lia|]. exists (M ++ [q]), B'. rewrite <- app_assoc. auto.
           ++ apply ss_app in HSq. destruct HSq as (_ & HF). inversion HF; subst. apply HB in Hpk. lia.
Qed.

(** The relation between a list and a later one: nodes keep row and level. *)
Definition keeps (l l' : list rln) : Prop := length l <= length l' /\ forall k, k < length l -> R l' k = R l k /\ lev (nth k l' dr) = lev (nth k l dr).
Lemma keeps_refl : forall l, keeps l l. Proof. split; auto. Qed.
Lemma keeps_trans : forall a b c, keeps a b -> keeps b c -> keeps a c.
Proof. intros a b c (L1 & H1) (L2 & H2). split; [lia|]. intros k Hk. destruct (H1 k Hk) as (<- & <-). apply H2. lia. Qed.
Lemma insert_chain : forall l A c B j v, chainok l (A ++ c :: B) -> R l c < j -> Forall (fun k => j < R l k) B -> j < nblk -> j <> i ->
  chainok (inserted l c j v) (A ++ c :: length l :: B) /\ keeps l (inserted l c j v) /\ R (inserted l c j v) (length l) = j /\ lv (inserted l c j v) (length l) = v.
Proof.
  intros l A c B j v HC Hc HB Hj Hn. pose proof (nodup_ks _ _ HC) as HN. destruct HC as (Hseg & HS & HL & HR). pose proof (seg_at _ _ _ _ _ Hseg) as (Hcl & _).
  assert (Rn : R (inserted l c j v) (length l) = j) by (unfold R; rewrite ins_new by auto; auto).
  assert (Rk : forall k, In k (A ++ c :: B) -> R (inserted l c j v) k = R l k) by (intros k Hk; apply ins_R; auto; eapply seg_lt; eauto).
  assert (EM : map (R (inserted l c j v)) (A ++ c :: length l :: B) = map (R l) A ++ R l c :: j :: map (R l) B).
  { rewrite map_app. cbn [map]. rewrite Rn, Rk by (apply in_or_app; right; left; auto). f_equal; [|f_equal; f_equal]; apply map_ext_in; intros k Hk; apply Rk; apply in_or_app; [auto|right; right; auto]. }
  assert (Rv : lv (inserted l c j v) (length l) = v) by (unfold lv; rewrite ins_new by auto; auto).
  split; [|split; [|auto]].
  - split; [apply seg_insert; auto|]. split; [|split].
    + rewrite EM. apply sorted_insert; auto; [rewrite map_app in HS; auto|]. apply Forall_forall. intros y Hy. apply in_map_iff in Hy. destruct Hy as (k & <- & Hk). apply (proj1 (Forall_forall _ _) HB); auto.
    + rewrite ins_len, <- HL. rewrite !app_length. cbn. lia.
    + intros k Hk. apply in_app_or in Hk. destruct Hk as [Hk|[<-|[<-|Hk]]].
      * rewrite Rk by (apply in_or_app; auto). apply HR. apply in_or_app; auto.
      * rewrite Rk by (apply in_or_app; right; left; auto). apply HR. apply in_or_app; right; left; auto.
      * rewrite Rn. auto.
      * rewrite Rk by (apply in_or_app; right; right; auto). apply HR. apply in_or_app; right; right; auto.
  - split; [rewrite ins_len; lia|]. intros k Hk. apply ins_R; auto.
Qed.
Lemma insert_prog : forall l c j v, c < length l -> set_next (l ++ [mkR j v (next (nth c l dr))]) c (Some (length l)) = Some (inserted l c j v).
Proof.
  intros l c j v Hc. unfold set_next, vmod. rewrite (vget_nth _ dr) by (lens; lia). cbn [bind]. rewrite app_nth1 by auto. rewrite vset_upd by (lens; lia). auto.
Qed.

(** The rows that are known already. *)
Variables (colInd diaInd : list nat) (aRL : list (nat * nat)).
Definition ar (c : nat) : nat := fst (nth c aRL (0, 0)).
Definition al (c : nat) : nat := snd (nth c aRL (0, 0)).
Variable lev_fill : option nat.
Variable Q : nat -> nat -> nat -> Prop.
Definition rows (l : list rln) (ks : list nat) (j : nat) : Prop := In j (map (R l) ks).
Lemma rows_keep : forall l l' ks ks' j, chainok l ks -> keeps l l' -> (forall k, In k ks -> In k ks') -> rows l ks j -> rows l' ks' j.
Proof.
  intros l l' ks ks' j (Hseg & _) (_ & HK) HI Hr. unfold rows in *. apply in_map_iff in Hr. destruct Hr as (k & <- & Hk). apply in_map_iff. exists k. split; auto. apply HK. eapply seg_lt; eauto.
Qed.

Lemma fill_row_ok : forall l ks1 cur ks2 klev lo hi, chainok l (ks1 ++ cur :: ks2) -> lo <= hi -> hi <= length aRL -> R l cur < i ->
  (forall c, lo <= c < hi -> R l cur < ar c < nblk) -> (forall c c', lo <= c -> c < c' -> c' < hi -> ar c < ar c') ->
  (forall c, lo <= c < hi -> ar c <> i -> too_deep (al c) lev_fill = false -> Q i (ar c) (Nat.max klev (al c) + 1)) ->
  wp (fill_row (S nblk) nblk i (R l cur) klev cur lo hi lev_fill aRL l) (fun '(_, l') => exists ks2', chainok l' (ks1 ++ cur :: ks2') /\ keeps l l' /\
    (forall k, In k (ks1 ++ cur :: ks2) -> In k (ks1 ++ cur :: ks2')) /\
    (forall c, lo <= c < hi -> too_deep (al c) lev_fill = false -> ar c <> i -> rows l' (ks1 ++ cur :: ks2') (ar c)) /\
    (forall k, In k (ks1 ++ cur :: ks2') -> In k (ks1 ++ cur :: ks2) \/ Q i (R l' k) (lv l' k))).
Proof.
  intros l ks1 cur ks2 klev lo hi HC Hle Hhi Hcur Hup Has HQ. unfold fill_row. set (kb := R l cur) in *.
  apply (wp_forn _ (fun kj '(jc, l') => exists ks2', chainok l' (ks1 ++ cur :: ks2') /\ keeps l l' /\ In jc (cur :: ks2') /\
    (forall c, kj <= c < hi -> R l' jc < ar c) /\
    (forall k, In k (ks1 ++ cur :: ks2) -> In k (ks1 ++ cur :: ks2')) /\
    (forall c, lo <= c < kj -> too_deep (al c) lev_fill = false -> ar c <> i -> rows l' (ks1 ++ cur :: ks2') (ar c)) /\
    (forall k, In k (ks1 ++ cur :: ks2') -> In k (ks1 ++ cur :: ks2) \/ Q i (R l' k) (lv l' k)))); [auto| | |].
  - exists ks2. split; auto. split; [apply keeps_refl|]. split; [left; auto|]. split; [intros c Hc; apply Hup; auto|]. split; auto. split; auto. intros; lia.
  - intros kj (jc & l') Hkj (ks2' & HC' & HK & Hjc & Hjr & Hinc & Hcl & Hrev).
    rewrite (vget_nth _ (0, 0)) by lia. cbn [bind]. destruct (nth kj aRL (0, 0)) as (jb & kjl) eqn:Ekj.
    assert (Ear : ar kj = jb) by (unfold ar; rewrite Ekj; auto). assert (Eal : al kj = kjl) by (unfold al; rewrite Ekj; auto).
    destruct (too_deep kjl lev_fill) eqn:Etd.
    { apply wp_some. exists ks2'. split; auto. split; auto. split; auto. split; [intros; apply Hjr; lia|]. split; auto. split; auto. intros c Hc Ht. apply Hcl; auto. assert (c <> kj) by (intros ->; congruence). lia. }
    destruct (Hup kj Hkj) as (U1 & U2). rewrite Ear in U1, U2. rewrite (proj2 (Nat.ltb_lt kb jb)), (proj2 (Nat.ltb_lt jb nblk)) by auto. cbn [andb assertb bind].
    pose proof HC' as (Hseg' & HS' & HL' & HB').
    assert (Hjl : jc < length l') by (eapply seg_lt; [exact Hseg'|]; apply in_or_app; auto). rewrite (vget_nth _ dr) by auto. cbn [bind]. fold (R l' jc).
    assert (Hjb : R l' jc < jb) by (rewrite <- Ear; apply Hjr; lia). rewrite (proj2 (Nat.ltb_lt (R l' jc) jb)) by auto. cbn [assertb bind].
    destruct (Nat.eqb_spec jb i) as [Eji|Nji].
    { apply wp_some. exists ks2'. split; auto. split; auto. split; auto. split; [intros; apply Hjr; lia|]. split; auto. split; auto. intros c Hc Ht Hn. apply Hcl; auto. assert (c <> kj) by (intros ->; congruence). lia. }
    apply in_split in Hjc. destruct Hjc as (M0 & B0 & EM0).
    assert (Eks : ks1 ++ cur :: ks2' = (ks1 ++ M0) ++ jc :: B0) by (rewrite EM0, <- app_assoc; auto).
    apply wp_bind. eapply wp_mono; [apply (find_place_ok l' (ks1 ++ cur :: ks2') (ks1 ++ M0) jc B0 jb); auto|].
    intros (c' & fill) (M & B' & EM & Hc' & Hfill).
    assert (Eks' : ks1 ++ cur :: ks2' = (ks1 ++ M0 ++ M) ++ c' :: B') by (rewrite Eks, EM, !app_assoc; auto).
    assert (Etl : cur :: ks2' = (M0 ++ M) ++ c' :: B') by (rewrite EM0, EM, <- !app_assoc; auto).
    destruct fill; cbn [negb].
    + (* a new node *)
      assert (Hcl' : c' < length l') by (eapply seg_lt; [exact Hseg'|]; rewrite Eks'; apply in_or_app; right; left; auto).
      rewrite (vget_nth _ dr) by auto. cbn [bind]. rewrite insert_prog by auto. cbn [bind]. apply wp_some.
      rewrite Eks' in HC'. set (v := (if kjl <? klev then klev else kjl) + 1) in *.
      destruct (insert_chain l' (ks1 ++ M0 ++ M) c' B' jb v HC' Hc' Hfill U2 Nji) as (HC2 & HK2 & HR2 & HV2).
      assert (Hex : exists ks3, (M0 ++ M) ++ c' :: length l' :: B' = cur :: ks3).
      { destruct (M0 ++ M) as [|x X]; cbn in Etl |- *; injection Etl as -> _; eexists; reflexivity. }
      destruct Hex as (ks3 & E3). assert (E3' : ks1 ++ cur :: ks3 = (ks1 ++ M0 ++ M) ++ c' :: length l' :: B') by (rewrite <- E3, !app_assoc; auto).
      exists ks3. rewrite E3'. split; auto. split; [eapply keeps_trans; eauto|].
      assert (Hinc2 : forall k, In k ((ks1 ++ M0 ++ M) ++ c' :: B') -> In k ((ks1 ++ M0 ++ M) ++ c' :: length l' :: B')).
      { intros k Hk. apply in_app_or in Hk. apply in_or_app. destruct Hk as [Hk|[<-|Hk]]; auto; right; [left|right; right]; auto. }
      split; [rewrite <- E3; apply in_or_app; right; right; left; auto|]. split; [|split; [|split]].
      * intros c Hc. rewrite HR2, <- Ear. apply Has; lia.
      * intros k Hk. apply Hinc2. rewrite <- Eks'. auto.
      * intros c Hc Ht Hn. assert (c = kj \/ c < kj) as [-> | Hlt] by lia.
        -- unfold rows. apply in_map_iff. exists (length l'). split; [congruence|]. apply in_or_app. right. right. left. auto.
        -- eapply (rows_keep l'); [exact HC'|exact HK2|exact Hinc2|]. rewrite <- Eks'. apply Hcl; auto. lia.
      * intros k Hk. destruct (Nat.eq_dec k (length l')) as [->|Nk].
        -- right. rewrite HR2, HV2, <- Ear. replace v with (Nat.max klev (al kj) + 1) by (unfold v; rewrite Eal; destruct (Nat.ltb_spec kjl klev); lia). apply HQ; auto; congruence.
        -- assert (Hk' : In k ((ks1 ++ M0 ++ M) ++ c' :: B')). { apply in_app_or in Hk. apply in_or_app. destruct Hk as [Hk|[<-|[C|Hk]]]; auto; [right; left; auto|congruence|right; right; auto]. }
           rewrite Eks' in Hrev, Hseg'. destruct HK2 as (_ & HK2). destruct (HK2 k (seg_lt _ _ _ Hseg' k Hk')) as (ER & EV). fold (lv (inserted l' c' jb v) k) in EV. fold (lv l' k) in EV. rewrite ER, EV. auto.
    + (* already there *)
      apply wp_some. exists ks2'. split; auto. split; auto. split; [rewrite Etl; apply in_or_app; right; left; auto|]. split; [|split; auto; split; auto].
      * intros c Hc. assert (jb < ar c) by (rewrite <- Ear; apply Has; lia). lia.
      * intros c Hc Ht Hn. assert (c = kj \/ c < kj) as [-> | Hlt] by lia; [rewrite Ear; exact Hfill|]. apply Hcl; auto. lia.
  - intros (jc & l') (ks2' & HC' & HK & _ & _ & Hinc & Hcl & Hrev). exists ks2'. auto.
Qed.

Hypothesis Hci : length colInd = nblk + 1.
Hypothesis Hdi : length diaInd = nblk.
Local Notation kc k := (nth k colInd 0).
Local Notation kd k := (nth k diaInd 0).
Hypothesis Hrow : forall k, k < i -> kd k <= kc (S k) /\ kc (S k) <= length aRL /\ (forall c, kd k <= c < kc (S k) -> k < ar c < nblk) /\ (forall c c', kd k <= c -> c < c' -> c' < kc (S k) -> ar c < ar c').
(** Q is closed under fill-in for row i *)
Hypothesis HQ : forall k v c, k < i -> Q i k v -> too_deep v lev_fill = false -> kd k <= c < kc (S k) -> ar c <> i -> too_deep (al c) lev_fill = false -> Q i (ar c) (Nat.max v (al c) + 1).

Lemma fill_all_ok : forall l ks, chainok l ks -> ks <> [] -> (forall k, In k ks -> Q i (R l k) (lv l k)) ->
  wp (fill_all (S nblk) nblk i lev_fill colInd diaInd aRL l) (fun l' => exists ks', chainok l' ks' /\ keeps l l' /\ (forall j, In j ks -> In j ks') /\ (forall k, In k ks' -> Q i (R l' k) (lv l' k)) /\
    (forall p c, In p ks' -> R l' p < i -> too_deep (lv l' p) lev_fill = false -> kd (R l' p) <= c < kc (S (R l' p)) -> ar c <> i -> too_deep (al c) lev_fill = false -> rows l' ks' (ar c))).
Proof.
  intros l ks HC Hne HQl. unfold fill_all. apply wp_bind.
  assert (Hk0 : exists ks2, ks = 0 :: ks2). { destruct HC as (Hseg & _). apply seg_hd in Hseg. destruct ks as [|q ks2]; [discriminate|]. injection Hseg as ->. eauto. }
  apply (wp_loopf _ (fun '(knz, l') => nblk - R l' knz) (fun '(knz, l') => exists ks1 ks2, chainok l' (ks1 ++ knz :: ks2) /\ keeps l l' /\ (forall j, In j ks -> In j (ks1 ++ knz :: ks2)) /\ (forall k, In k (ks1 ++ knz :: ks2) -> Q i (R l' k) (lv l' k)) /\
    (forall p c, In p ks1 -> R l' p < i -> too_deep (lv l' p) lev_fill = false -> kd (R l' p) <= c < kc (S (R l' p)) -> ar c <> i -> too_deep (al c) lev_fill = false -> rows l' (ks1 ++ knz :: ks2) (ar c)))).
  - lia.
  - destruct Hk0 as (ks2 & ->). exists [], ks2. cbn [app]. split; auto. split; [apply keeps_refl|]. split; auto. split; auto. intros p c [].
  - intros (knz & l') (ks1 & ks2 & HC' & HK & Hin & HQ' & Hcl). pose proof HC' as (Hseg & HS & HL & HB). pose proof (seg_at _ _ _ _ _ Hseg) as (Hkl & _).
    assert (Hkin : In knz (ks1 ++ knz :: ks2)) by (apply in_or_app; right; left; auto). destruct (HB knz Hkin) as (Hb1 & Hb2). pose proof (chain_small _ _ HC') as Hsm.
    rewrite (vget_nth _ dr) by auto. cbn [bind]. fold (R l' knz). fold (lv l' knz). rewrite (proj2 (Nat.ltb_lt _ _) Hb1). cbn [assertb bind].
    assert (Hnext : forall l2 ks2', keeps l' l2 -> chainok l2 (ks1 ++ knz :: ks2') -> forall q ks3, ks2' = q :: ks3 -> chainok l2 ((ks1 ++ [knz]) ++ q :: ks3) /\ nblk - R l2 q < nblk - R l' knz).
    { intros l2 ks2' HK2 HC2 q ks3 ->. split; [rewrite <- app_assoc; auto|]. destruct HC2 as (_ & HS2 & _ & HB2). rewrite map_app in HS2. apply ss_app in HS2. destruct HS2 as (_ & HF). inversion HF; subst.
      assert (Hq : In q (ks1 ++ knz :: q :: ks3)) by (apply in_or_app; right; right; left; auto). apply HB2 in Hq. destruct HK2 as (_ & HK2). destruct (HK2 knz Hkl) as (<- & _). lia. }
    destruct (too_deep (lv l' knz) lev_fill) eqn:Etd.
    { assert (Hcl' : forall p c, In p (ks1 ++ [knz]) -> R l' p < i -> too_deep (lv l' p) lev_fill = false -> kd (R l' p) <= c < kc (S (R l' p)) -> ar c <> i -> too_deep (al c) lev_fill = false -> rows l' (ks1 ++ knz :: ks2) (ar c)).
      { intros p c Hp X1 X2. apply in_app_or in Hp. destruct Hp as [Hp|[<-|[]]]; [apply (Hcl p c); auto|congruence]. }
      rewrite (seg_next _ _ _ _ _ Hseg). destruct ks2 as [|q ks3].
      - apply wp_some. cbn [fst snd]. apply wp_some. exists (ks1 ++ [knz]). auto.
      - apply wp_some. cbn [fst snd]. destruct (Hnext l' (q :: ks3) (keeps_refl _) HC' q ks3 eq_refl) as (HC2 & Hm). split; [|exact Hm]. exists (ks1 ++ [knz]), ks3. split; auto. split; auto.
        rewrite <- app_assoc. cbn [app]. auto. }
    destruct (Nat.leb_spec i (R l' knz)) as [Hge|Hlt].
    { apply wp_some. cbn [fst snd]. apply wp_some. exists (ks1 ++ knz :: ks2). split; auto. split; auto. split; auto. split; auto. intros p c Hp Hpi. apply (Hcl p c); auto. apply in_app_or in Hp. destruct Hp as [Hp|Hp]; auto. exfalso.
      rewrite map_app in HS. apply ss_app in HS. destruct HS as (_ & HF). destruct Hp as [<-|Hp]; [lia|]. pose proof (proj1 (Forall_forall _ _) HF (R l' p) (in_map _ _ _ Hp)). lia. }
    rewrite (vget_nth _ 0) by lia. cbn [bind]. replace (R l' knz + 1) with (S (R l' knz)) by lia. rewrite (vget_nth _ 0) by lia. cbn [bind].
    destruct (Hrow (R l' knz) Hlt) as (A1 & A2 & A3 & A4).
    apply wp_bind. eapply wp_mono; [apply (fill_row_ok l' ks1 knz ks2); auto|].
    { intros c Hc Hn Ht. apply (HQ (R l' knz)); auto. }
    intros (jc & l2) (ks2' & HC2 & HK2 & Hinc & Hnew & Hrev). pose proof HC2 as (Hseg2 & HS2 & HL2 & HB2). pose proof (seg_at _ _ _ _ _ Hseg2) as (Hkl2 & _).
    rewrite (vget_nth _ dr) by auto. cbn [bind]. rewrite (seg_next _ _ _ _ _ Hseg2).
    assert (Hold : forall j, rows l' (ks1 ++ knz :: ks2) j -> rows l2 (ks1 ++ knz :: ks2') j) by (intros j; apply rows_keep; auto).
    assert (Hsame : forall k, In k (ks1 ++ knz :: ks2) -> R l2 k = R l' k /\ lv l2 k = lv l' k) by (intros k Hk; apply HK2; exact (seg_lt _ _ _ Hseg k Hk)).
    assert (HQ2 : forall k, In k (ks1 ++ knz :: ks2') -> Q i (R l2 k) (lv l2 k)). { intros k Hk. destruct (Hrev k Hk) as [Ho|]; auto. destruct (Hsame k Ho) as (-> & ->). auto. }
    assert (Hcl2 : forall p c, In p (ks1 ++ [knz]) -> R l2 p < i -> too_deep (lv l2 p) lev_fill = false -> kd (R l2 p) <= c < kc (S (R l2 p)) -> ar c <> i -> too_deep (al c) lev_fill = false -> rows l2 (ks1 ++ knz :: ks2') (ar c)).
    { intros p c Hp Hpi Ht Hc Hn Hta.
      assert (Hpk : In p (ks1 ++ knz :: ks2)) by (apply in_app_or in Hp; apply in_or_app; destruct Hp as [Hp|[<-|[]]]; [left|right; left]; auto).
      destruct (Hsame p Hpk) as (Rp & Lp). rewrite Rp, ?Lp in *.
      apply in_app_or in Hp. destruct Hp as [Hp|[<-|[]]].
      - apply Hold. apply (Hcl p); auto.
      - apply Hnew; auto. }
    destruct ks2' as [|q ks3].
    + apply wp_some. cbn [fst snd]. apply wp_some. exists (ks1 ++ [knz]). split; auto. split; [eapply keeps_trans; eauto|]. split; auto.
    + assert (Hql : q < length l2) by (eapply seg_lt; [exact Hseg2|]; apply in_or_app; right; right; left; auto). pose proof (chain_small _ _ HC2).
      rewrite (proj2 (Nat.ltb_lt q nblk)) by lia. cbn [assertb bind]. apply wp_some. cbn [fst snd]. destruct (Hnext l2 (q :: ks3) HK2 HC2 q ks3 eq_refl) as (HC3 & Hm). split; [|exact Hm].
      exists (ks1 ++ [knz]), ks3. split; auto. split; [eapply keeps_trans; eauto|]. rewrite <- app_assoc. cbn [app]. split; auto.
Qed.
End L.
