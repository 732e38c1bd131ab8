(** Proofs for IluProps.v: Initialize_ILUk, the whole pattern. *)
From Coq Require Import List Arith Bool Lia ZArith Ring Permutation Sorted.
Import ListNotations.
From Verif Require Import Imp Alg SpModel SpSpec IluModel IluSpec IluProofs1 IluProofs5 IluProofs6 IluProofs7 IluProofs8.
Open Scope nat_scope.

Lemma ss_nth : forall L a b, StronglySorted lt L -> a < b -> b < length L -> nth a L 0 < nth b L 0.
Proof.
  induction L; cbn [length]; intros x y H Hxy Hy; [lia|]. inversion H; subst. destruct y; [lia|]. destruct x; cbn [nth].
  - apply (proj1 (Forall_forall _ _) H3). apply nth_In. lia.
  - apply IHL; auto; lia.
Qed.
Lemma nth_vresize : forall A (d : A) v n k, k < n -> nth k (vresize d v n) d = nth k v d.
Proof.
  intros A d v n k Hk. unfold vresize. destruct (Nat.lt_ge_cases k (length v)) as [H|H].
  - rewrite app_nth1 by (rewrite firstn_length; lia). rewrite <- (firstn_skipn n v) at 2. rewrite app_nth1 by (rewrite firstn_length; lia). auto.
  - rewrite app_nth2 by (rewrite firstn_length; lia). rewrite (nth_overflow v) by auto. destruct (nth_in_or_default (k - length (firstn n v)) (repeat d (n - length v)) d) as [E|E]; auto. apply repeat_spec in E. auto.
Qed.

Lemma emit_ok : forall nblk i l ks base A0, i < nblk -> chainok nblk i l ks -> ks <> [] -> length A0 = base + length l ->
  wp (loopf (S nblk) (fun '(inz, icrs0, aRowLev) =>
        r <- vget l inz ;;
        assertb (row r <? nblk) ;;;
        assertb (negb (row r =? i)) ;;;
        aRowLev <- vset aRowLev icrs0 (row r, lev r) ;;
        match next r with
        | None => Some ((inz, (icrs0 + 1)%nat, aRowLev), true)
        | Some k => Some ((k, (icrs0 + 1)%nat, aRowLev), false)
        end) (0%nat, base, A0))
   (fun '(_, ic, A) => ic = base + length l /\ length A = base + length l /\ (forall c, c < base -> nth c A (0, 0) = nth c A0 (0, 0)) /\
     forall t, t < length l -> nth (base + t) A (0, 0) = (R l (nth t ks 0), lev (nth (nth t ks 0) l dr))).
Proof.
  intros nblk i l ks base A0 Hi HC Hne HL0. pose proof HC as (Hseg & HS & HL & HB).
  assert (Hk0 : exists ks2, ks = 0 :: ks2). { apply seg_hd in Hseg. destruct ks as [|q ks2]; [congruence|]. injection Hseg as ->. eauto. }
  apply (wp_loopf _ (fun '(inz, _, _) => nblk - R l inz) (fun '(inz, ic, A) => exists ks1 ks2, ks = ks1 ++ inz :: ks2 /\ ic = base + length ks1 /\ length A = base + length l /\ (forall c, c < base -> nth c A (0, 0) = nth c A0 (0, 0)) /\
     forall t, t < length ks1 -> nth (base + t) A (0, 0) = (R l (nth t ks 0), lev (nth (nth t ks 0) l dr)))).
  - lia.
  - destruct Hk0 as (ks2 & ->). exists [], ks2. cbn [length app]. split; auto. split; [lia|]. split; auto. split; auto. intros; lia.
  - intros ((inz & ic) & A) (ks1 & ks2 & Eks & -> & LA & A1 & A2).
    assert (Hin : In inz ks) by (rewrite Eks; apply in_or_app; right; left; auto). destruct (HB inz Hin) as (B1 & B2). pose proof (seg_lt _ _ _ Hseg inz Hin) as Hlt.
    rewrite (vget_nth _ dr) by auto. cbn [bind]. fold (R l inz). rewrite (proj2 (Nat.ltb_lt _ _) B1). cbn [assertb bind]. rewrite (proj2 (Nat.eqb_neq _ _) B2). cbn [negb assertb bind].
    assert (Hl1 : length ks1 < length l) by (rewrite <- HL, Eks, app_length; cbn; lia). rewrite vset_upd by lia. cbn [bind].
    assert (Hsq : seg l (Some 0) (ks1 ++ inz :: ks2)) by (rewrite <- Eks; auto). rewrite (seg_next _ _ _ _ _ Hsq).
    set (A' := upd A (base + length ks1) (R l inz, lev (nth inz l dr))).
    assert (LA' : length A' = base + length l) by (unfold A'; lens; auto).
    assert (A1' : forall c, c < base -> nth c A' (0, 0) = nth c A0 (0, 0)) by (intros c Hc; unfold A'; rewrite nth_upd_other by lia; auto).
    assert (A2' : forall t, t < S (length ks1) -> nth (base + t) A' (0, 0) = (R l (nth t ks 0), lev (nth (nth t ks 0) l dr))).
    { intros t Ht. unfold A'. rewrite nth_upd by lia. destruct (Nat.eq_dec (base + length ks1) (base + t)) as [E|N].
      - assert (t = length ks1) as -> by lia. rewrite Eks, app_nth2, Nat.sub_diag by lia. auto.
      - apply A2. lia. }
    destruct ks2 as [|q ks3].
    + apply wp_some. cbn [fst snd]. assert (E : length l = length ks1 + 1) by (rewrite <- HL, Eks, app_length; cbn; lia). split; [lia|]. split; auto. split; auto. intros t Ht. apply A2'. lia.
    + apply wp_some. cbn [fst snd]. split.
      * exists (ks1 ++ [inz]), ks3. rewrite <- app_assoc. split; auto. rewrite app_length. cbn [length]. split; [lia|]. split; auto. split; auto. intros t Ht. apply A2'. lia.
      * rewrite Eks, map_app in HS. apply ss_app in HS. destruct HS as (_ & HF). inversion HF; subst. assert (Hq : In q (ks1 ++ inz :: q :: ks3)) by (apply in_or_app; right; right; left; auto). apply HB in Hq. lia.
Qed.

Section I.
Variable K : cring.
Variables (P0 : ilu K) (m : matsp K).
Hypothesis Hwf : wf m.
Hypothesis Hsq : square m.
Hypothesis Hs : simple_rows m.
Hypothesis H00 : ci m 0 = 0.
Hypothesis Hne : forall I, I < nrowblk m -> ci m I < ci m (S I).
Hypothesis HC0 : nth 0 (colInd P0) 0 = 0.
Hypothesis Hpos : 0 < nrowblk m /\ 0 < nrowdim m.
Variable lev_fill : option nat.
Hypothesis Hlev : lev_fill <> Some 0.
Local Notation nb := (nrowblk m).
Local Notation Q := (fill_level m lev_fill).

Definition rowP (C D A V : nat -> nat) (I : nat) : Prop :=
  C I <= D I <= C (S I) /\
  (forall c, C I <= c < D I -> A c < I) /\ (forall c, D I <= c < C (S I) -> I < A c < nb) /\
  (forall c c', C I <= c -> c < c' -> c' < C (S I) -> A c < A c') /\
  (forall J, in_pattern m I J -> exists c, C I <= c < C (S I) /\ A c = J /\ V c = 0) /\
  (forall c, C I <= c < C (S I) -> Q I (A c) (V c)) /\
  (forall c c', C I <= c < C (S I) -> A c < I -> too_deep (V c) lev_fill = false -> D (A c) <= c' < C (S (A c)) -> A c' <> I -> too_deep (V c') lev_fill = false -> exists c2, C I <= c2 < C (S I) /\ A c2 = A c').
Lemma C_mono : forall (C : nat -> nat) n, (forall I, I < n -> C I <= C (S I)) -> forall I J, I <= J -> J <= n -> C I <= C J.
Proof. intros C n H I J HIJ. induction HIJ; intros; [lia|]. assert (Hm : m0 < n) by lia. pose proof (H m0 Hm). lia. Qed.
Lemma rowP_ext : forall C D A V C' D' A' V' i, (forall I, I < i -> rowP C D A V I) -> (forall I, I <= i -> C' I = C I) -> (forall I, I < i -> D' I = D I) -> (forall c, c < C i -> A' c = A c) -> (forall c, c < C i -> V' c = V c) ->
  forall I, I < i -> rowP C' D' A' V' I.
Proof.
  intros C D A V C' D' A' V' i H HC HD HA HVV I HI.
  assert (Hm : forall I, I < i -> C I <= C (S I)) by (intros J HJ; destruct (H J HJ) as (E & _); lia).
  assert (Hle : C (S I) <= C i) by (apply (C_mono C i Hm); lia).
  destruct (H I HI) as (B1 & B2 & B3 & B4 & B5 & B6 & B7). unfold rowP. rewrite !HC, HD by lia.
  split; auto. split; [intros c Hc; rewrite HA by lia; auto|]. split; [intros c Hc; rewrite HA by lia; auto|]. split; [intros c c' H1 H2 H3; rewrite !HA by lia; auto|].
  split; [intros J HJ; destruct (B5 J HJ) as (c & Hc & E & E2); exists c; split; auto; rewrite HA, HVV by lia; auto|]. split; [intros c Hc; rewrite HA, HVV by lia; auto|].
  intros c c' Hc HAc Ht Hc' Hn Ht'. rewrite HA in HAc, Hc' by lia. rewrite HVV in Ht by lia. rewrite HD, HC in Hc' by lia.
  assert (Hle' : C (S (A c)) <= C i) by (apply (C_mono C i Hm); lia). rewrite HA in Hn |- * by lia. rewrite HVV in Ht' by lia.
  destruct (B7 c c' Hc HAc Ht Hc' Hn Ht') as (c2 & H1 & H2). exists c2. split; auto. rewrite HA by lia. auto.
Qed.
Lemma below_deep : forall v, too_deep v lev_fill = false <-> below v lev_fill.
Proof. intros v. unfold too_deep, below. destruct lev_fill; [|intuition]. rewrite Nat.ltb_ge. lia. Qed.

Definition iluk_post (P : ilu K) : Prop := pattern_ok P /\ values_ok P /\ nblk P = nrowblk m /\ ndim P = nrowdim m /\
  exists V : nat -> nat,
    (forall I J, I < nb -> in_pattern m I J -> exists c, cI P I <= c < cI P (S I) /\ cp P c = J /\ V c = 0) /\
    (forall I c, I < nb -> cI P I <= c < cI P (S I) -> fill_level m lev_fill I (cp P c) (V c)) /\
    (forall I c c', I < nb -> cI P I <= c < cI P (S I) -> cp P c < I -> below (V c) lev_fill -> cI P (cp P c) <= c' < cI P (S (cp P c)) -> cp P c < cp P c' -> cp P c' <> I -> below (V c') lev_fill -> stored P I (cp P c')).

Lemma init_list : forall i tmp lo hi, lo < hi -> hi <= length tmp -> i < nb -> (forall c, lo <= c < hi -> nth c tmp 0 < nb /\ nth c tmp 0 <> i) -> (forall c c', lo <= c -> c < c' -> c' < hi -> nth c tmp 0 < nth c' tmp 0) ->
  wp ('(inz, l) <- forn lo hi (fun ijcrs '(inz, l) =>
        assertb (ijcrs <? length tmp)%nat ;;;
        jblk0 <- vget tmp ijcrs ;;
        assertb (jblk0 <? nb)%nat ;;;
        l <- vset l inz (mkR jblk0 0 (Some (inz + 1)%nat)) ;;
        Some ((inz + 1)%nat, l)) (0%nat, repeat (mkR 0 0 None) (hi - lo)) ;;
      assertb (1 <=? inz)%nat ;;;
      set_next l (inz - 1) None)
   (fun l => chainok nb i l (seq 0 (hi - lo)) /\ length l = hi - lo /\ forall k, k < hi - lo -> R l k = nth (lo + k) tmp 0 /\ lv l k = 0).
Proof.
  intros i tmp lo hi Hlt Hhi Hi Hb Has. apply wp_bind.
  apply (wp_forn _ (fun c '(inz, l) => inz = c - lo /\ length l = hi - lo /\ forall k, k < c - lo -> nth k l dr = mkR (nth (lo + k) tmp 0) 0 (Some (k + 1)))); [lia| | |].
  - split; [lia|]. split; [apply repeat_length|]. intros; lia.
  - intros c (inz & l) Hc (-> & L & H). rewrite (proj2 (Nat.ltb_lt c (length tmp))) by lia. cbn [assertb bind]. rewrite (vget_nth _ 0) by lia. cbn [bind]. rewrite (proj2 (Nat.ltb_lt (nth c tmp 0) nb)) by (apply Hb; lia). cbn [assertb bind].
    rewrite vset_upd by lia. cbn [bind]. apply wp_some. split; [lia|]. split; [lens; auto|]. intros k Hk. rewrite nth_upd by lia. destruct (Nat.eq_dec (c - lo) k) as [<-|N].
    + replace (lo + (c - lo)) with c by lia. auto.
    + apply H. lia.
  - intros (inz & l) (-> & L & H). rewrite (proj2 (Nat.leb_le 1 (hi - lo))) by lia. cbn [assertb bind]. unfold set_next. apply (wp_vmod _ dr); [lia|].
    set (l' := upd l _ _).
    assert (L' : length l' = hi - lo) by (unfold l'; lens; auto).
    assert (H' : forall k, k < hi - lo -> nth k l' dr = mkR (nth (lo + k) tmp 0) 0 (if S k =? hi - lo then None else Some (S k))).
    { intros k Hk. unfold l'. rewrite nth_upd by lia. destruct (Nat.eq_dec (hi - lo - 1) k) as [<-|N].
      - rewrite H by lia. cbn [row lev]. rewrite (proj2 (Nat.eqb_eq _ _)) by lia. auto.
      - rewrite H by lia. rewrite (proj2 (Nat.eqb_neq _ _)) by lia. f_equal. f_equal. lia. }
    assert (HR : forall k, k < hi - lo -> R l' k = nth (lo + k) tmp 0) by (intros k Hk; unfold R; rewrite H' by auto; auto).
    assert (HVz : forall k, k < hi - lo -> lv l' k = 0) by (intros k Hk; unfold lv; rewrite H' by auto; auto).
    split; [|auto]. split; [|split; [|split]].
    + assert (G : forall n k, k + n = hi - lo -> seg l' (if n =? 0 then None else Some k) (seq k n)).
      { induction n; intros k Hk; cbn [seq Nat.eqb]; [constructor|]. constructor; [lia|]. rewrite H' by lia. cbn [next]. specialize (IHn (S k)). replace (S k =? hi - lo) with (n =? 0); [apply IHn; lia|].
        destruct (Nat.eqb_spec n 0), (Nat.eqb_spec (S k) (hi - lo)); auto; lia. }
      specialize (G (hi - lo) 0 eq_refl). rewrite (proj2 (Nat.eqb_neq (hi - lo) 0)) in G by lia. auto.
    + assert (G : forall n k, k + n = hi - lo -> StronglySorted lt (map (R l') (seq k n))).
      { induction n; intros k Hk; cbn [seq map]; constructor; [apply IHn; lia|]. apply Forall_forall. intros y Hy. apply in_map_iff in Hy. destruct Hy as (q & <- & Hq). apply in_seq in Hq. rewrite !HR by lia. apply Has; lia. }
      apply (G (hi - lo) 0 eq_refl).
    + rewrite seq_length. auto.
    + intros k Hk. apply in_seq in Hk. rewrite HR by lia. apply Hb. lia.
Qed.

Lemma Initialize_fixedQ : wp (Initialize_levels K P0 m lev_fill) iluk_post.
Proof.
  pose proof Hwf as (W1 & W2 & W3 & W4 & W5 & W6 & W7). pose proof Hsq as (S1 & S2). destruct Hpos as (Hp1 & Hp2).
  assert (Hmono : forall I J, I <= J -> J <= nb -> ci m I <= ci m J) by (apply C_mono; auto).
  unfold Initialize_levels. cbn zeta. rewrite S1, Nat.eqb_refl. cbn [assertb bind]. rewrite S2, Nat.eqb_refl. cbn [assertb bind]. rewrite <- S1, <- S2.
  apply wp_bind. eapply wp_mono; [apply sorted_rows; auto|]. intros tmp (Lt & T1 & T2 & T3).
  assert (HTb : forall I c, I < nb -> ci m I <= c < ci m (S I) -> nth c tmp 0 < nb /\ nth c tmp 0 <> I /\ c < length tmp).
  { intros I c HI Hc. destruct (T2 I c HI Hc) as (q & Hq & Eq). pose proof Hq as Hq'. unfold row_range in Hq'. apply in_seq in Hq'. pose proof (Hmono (S I) nb).
    assert (Hql : q < length (row_ptr m)) by lia. pose proof (W4 q Hql). split; [lia|]. split; [|lia]. intros C. destruct (Hs I HI) as (_ & HnI). apply HnI. apply in_map_iff. exists q. split; [congruence|auto]. }
  assert (Hdd : 0 < nb * (nrowdim m * nrowdim m)) by (apply Nat.mul_pos_pos; auto; apply Nat.mul_pos_pos; auto).
  assert (HvD : length (val_dia m) = nb * (nrowdim m * nrowdim m)) by (rewrite W6; rewrite ?S2; auto).
  rewrite (proj2 (Nat.eqb_neq (length (val_dia m)) 0)) by lia. cbn [negb assertb bind].
  apply wp_bind.
  apply (wp_forn _ (fun i '(cI', dI', rp', aRL) => length cI' = nb + 1 /\ length dI' = nb /\ nth 0 cI' 0 = 0 /\ length aRL = nth i cI' 0 /\ length rp' = nth i cI' 0 /\
     forall I, I < i -> rowP (fun k => nth k cI' 0) (fun k => nth k dI' 0) (ar aRL) (al aRL) I)); [lia| | |].
  - split; [apply vresize_length|]. split; [apply vresize_length|]. rewrite nth_vresize by lia. split; auto. split; auto. split; auto. intros; lia.
  - intros i (((cI' & dI') & rp') & aRL) Hi (Lc & Ld & C0 & La & Lr & HP). destruct Hi as (_ & Hi).
    replace (i + 1) with (S i) by lia. rewrite !(vget_nth _ 0 (col_ind m)) by lia. cbn [bind]. fold (ci m i). fold (ci m (S i)). pose proof (Hne i Hi) as Hnei.
    assert (Hhi : ci m (S i) <= length tmp) by (rewrite Lt, <- W3; apply Hmono; lia).
    pose proof (init_list i tmp (ci m i) (ci m (S i)) Hnei Hhi Hi) as HI.
    assert (HI1 : forall c, ci m i <= c < ci m (S i) -> nth c tmp 0 < nb /\ nth c tmp 0 <> i) by (intros c Hc; destruct (HTb i c Hi Hc) as (? & ? & _); auto).
    specialize (HI HI1 (fun c c' => T1 i c c' Hi)).
    apply wp_ex in HI. destruct HI as (l0 & El0 & HC0' & Ll0 & HR0).
    match type of El0 with bind ?e _ = _ => destruct e as [[inz li]|] eqn:Ee; [|discriminate] end. cbn [bind] in El0. cbn [bind].
    destruct (assertb (1 <=? inz)) as [[]|]; [|discriminate]. cbn [bind] in El0 |- *. rewrite El0. cbn [bind]. clear Ee El0 inz li.
    set (ks0 := seq 0 (ci m (S i) - ci m i)) in *.
    assert (Hks0 : ks0 <> []) by (unfold ks0; destruct (ci m (S i) - ci m i) eqn:Ez; [lia|discriminate]).
    assert (HR0a : forall k, k < ci m (S i) - ci m i -> R l0 k = nth (ci m i + k) tmp 0) by (intros k Hk; apply HR0; auto).
    assert (HR0b : forall k, In k ks0 -> lv l0 k = 0) by (intros k Hk; apply in_seq in Hk; apply HR0; lia).
    assert (Hin1 : forall k, In k ks0 -> in_pattern m i (R l0 k)) by (intros k Hk; apply in_seq in Hk; rewrite HR0a by lia; apply T2; auto; lia).
    assert (Hin2 : forall j, in_pattern m i j -> exists k, In k ks0 /\ R l0 k = j).
    { intros j Hj. destruct (T3 i j Hi Hj) as (c & Hc & <-). exists (c - ci m i). split; [apply in_seq; lia|]. rewrite HR0a by lia. f_equal. lia. }
    assert (Hcm : forall I, I < i -> nth I cI' 0 <= nth (S I) cI' 0) by (intros I HIi; destruct (HP I HIi) as (Ex & _); lia).
    pose proof (C_mono (fun k => nth k cI' 0) i Hcm) as Hcmono. cbn beta in Hcmono.
    apply wp_bind. eapply wp_mono; [apply (fill_all_ok nb i Hi cI' dI' aRL lev_fill Q); [lia|lia| | |exact HC0'|exact Hks0|]|].
    { intros k Hk. destruct (HP k Hk) as (B1 & B2 & B3 & B4 & _). split; [lia|]. split; [rewrite La; apply Hcmono; lia|]. split; auto. intros c c' X1 X2 X3. apply B4; lia. }
    { intros k v c Hk HQk Hv Hc Hn Ha. destruct (HP k Hk) as (B1 & B2 & B3 & B4 & B5 & B6 & _). apply (fl_fill K m lev_fill i k); auto; [apply B3; auto|apply B6; lia|apply below_deep; auto|apply below_deep; auto]. }
    { intros k Hk. rewrite HR0b by auto. apply fl_block; auto. }
    intros l (ks & HCl & HKl & Hsup & HQl & Hcl). set (base := nth i cI' 0) in *.
    assert (Hksne : ks <> []).
    { destruct ks0 as [|q0 ks0']; [congruence|]. assert (Hr : In q0 ks) by (apply Hsup; left; auto). intros ->. destruct Hr. }
    rewrite (vget_nth _ 0) by lia. cbn [bind]. fold base.
    apply wp_bind. eapply wp_mono; [apply (emit_ok nb i l ks base); auto; apply vresize_length|].
    intros ((z & ic) & A) (-> & LA & A1 & A2). pose proof HCl as (Hseg & HSs & HLk & HBk).
    rewrite vset_upd by lia. cbn [bind]. rewrite vset_upd by lia. cbn [bind].
    set (cI2 := upd cI' (S i) (base + length l)).
    assert (Lc2 : length cI2 = nb + 1) by (unfold cI2; lens; auto).
    assert (Hci2 : forall k, k <= i -> nth k cI2 0 = nth k cI' 0) by (intros k Hk; unfold cI2; apply nth_upd_other; lia).
    assert (HcS : nth (S i) cI2 0 = base + length l) by (unfold cI2; apply nth_upd_same; lia).
    rewrite (vget_nth _ 0) by lia. cbn [bind]. rewrite Hci2 by lia. fold base.
    assert (Hold : forall c, c < base -> ar A c = ar aRL c) by (intros c Hc; unfold ar; rewrite A1 by auto; rewrite nth_vresize by lia; auto).
    assert (Hold2 : forall c, c < base -> al A c = al aRL c) by (intros c Hc; unfold al; rewrite A1 by auto; rewrite nth_vresize by lia; auto).
    assert (Hnew : forall t, t < length l -> ar A (base + t) = nth t (map (R l) ks) 0).
    { intros t Ht. unfold ar. rewrite A2 by auto. cbn [fst]. rewrite (nth_indep (map (R l) ks) 0 (R l 0)) by (rewrite map_length; lia). rewrite map_nth. auto. }
    assert (Hnode : forall c, base <= c < base + length l -> exists p, In p ks /\ ar A c = R l p /\ al A c = lv l p).
    { intros c Hc. exists (nth (c - base) ks 0). split; [apply nth_In; lia|]. unfold ar, al. replace c with (base + (c - base)) at 1 3 by lia. rewrite A2 by lia. auto. }
    assert (Hpos' : forall p, In p ks -> exists c, base <= c < base + length l /\ ar A c = R l p /\ al A c = lv l p).
    { intros p Hp. destruct (In_nth _ _ 0 Hp) as (t & Ht & Et). exists (base + t). split; [lia|]. unfold ar, al. rewrite A2 by lia. rewrite Et. auto. }
    assert (Hrows : forall j, rows l ks j -> exists c, base <= c < base + length l /\ ar A c = j).
    { intros j Hj. unfold rows in Hj. apply in_map_iff in Hj. destruct Hj as (p & <- & Hp). destruct (Hpos' p Hp) as (c & Hc & E & _). eauto. }
    assert (Hasc : forall c c', base <= c -> c < c' -> c' < base + length l -> ar A c < ar A c').
    { intros c c' X1 X2 X3. replace c with (base + (c - base)) by lia. replace c' with (base + (c' - base)) by lia. rewrite !Hnew by lia. apply ss_nth; auto; [lia|]. rewrite map_length. lia. }
    assert (Hbnd : forall c, base <= c < base + length l -> ar A c < nb /\ ar A c <> i).
    { intros c Hc. destruct (Hnode c Hc) as (p & Hp & -> & _). auto. }
    assert (Hmap : forall c, nth c (map fst A) 0 = ar A c) by (intros c; unfold ar; change 0 with (fst (0, 0)) at 1; apply map_nth).
    apply wp_bind. eapply wp_mono; [apply (find_dia K m H00 cI' (map fst A) dI' i base (base + length l) (fun c _ => Some (nth c (map fst A) 0))); [lia|lia|auto|]|].
    { intros c dd Hc. rewrite (vget_nth _ (0, 0)) by lia. cbn [bind]. rewrite Hmap. unfold ar. destruct (nth c A (0, 0)). cbn [fst]. auto. }
    intros dI2 (Ld2 & D1 & D2 & D3 & D4). apply wp_some.
    split; auto. split; [lia|]. split; [rewrite Hci2 by lia; auto|]. rewrite HcS. split; auto. split; [apply vresize_length|].
    assert (Hprev : forall I, I < i -> rowP (fun k => nth k cI2 0) (fun k => nth k dI2 0) (ar A) (al A) I).
    { apply (rowP_ext (fun k => nth k cI' 0) (fun k => nth k dI' 0) (ar aRL) (al aRL)); auto. intros I HIi. apply D1. lia. }
    intros I HI. assert (I = i \/ I < i) as [-> | HIlt] by lia; [|auto].
    unfold rowP. rewrite HcS, (Hci2 i) by lia. fold base. set (dd := nth i dI2 0) in *.
    split; [exact D2|]. split; [|split; [|split; [|split; [|split]]]].
    + intros c Hc. specialize (D3 c Hc). rewrite Hmap in D3. destruct (Hbnd c) as (_ & Hn); lia.
    + intros c Hc. split; [|apply Hbnd; lia]. assert (Hd4 : i < ar A dd) by (rewrite <- Hmap; apply D4; lia). assert (c = dd \/ dd < c) as [-> | Hgt] by lia; auto. pose proof (Hasc dd c). lia.
    + exact Hasc.
    + intros J HJ. destruct (Hin2 J HJ) as (p & Hp & Ep). destruct (Hpos' p (Hsup p Hp)) as (c & Hc & Ec & Ev). exists c. split; auto.
      assert (Hpl : p < length l0) by (destruct HC0' as (Hs0 & _); exact (seg_lt _ _ _ Hs0 p Hp)). destruct HKl as (_ & HKl). destruct (HKl p Hpl) as (K1 & K2). fold (lv l p) in K2. fold (lv l0 p) in K2. rewrite Ec, Ev, K1, K2. auto.
    + intros c Hc. destruct (Hnode c Hc) as (p & Hp & -> & ->). apply HQl. auto.
    + intros c c' Hc HAc Ht Hc' Hn Ht'. apply Hrows. rewrite (Hci2 (S (ar A c))) in Hc' by lia. rewrite D1 in Hc' by lia.
      assert (Hcb : c' < base) by (pose proof (Hcmono (S (ar A c)) i); unfold base; lia).
      rewrite (Hold c') in Hn |- * by auto. rewrite (Hold2 c') in Ht' by auto. destruct (Hnode c Hc) as (p & Hp & E1 & E2). rewrite E1 in HAc, Hc'. rewrite E2 in Ht. apply (Hcl p); auto.
  - intros (((cI' & dI') & rp') & aRL) (Lc & Ld & C0 & La & Lr & HP).
    rewrite La, Lr, Nat.eqb_refl. cbn [assertb bind]. set (n := nth nb cI' 0) in *. apply wp_bind.
    apply (wp_forn _ (fun k v => length v = n /\ forall c, c < k -> nth c v 0 = ar aRL c)); [lia| | |].
    + split; auto. intros; lia.
    + intros k v Hk (L & H). rewrite (vget_nth _ (0, 0)) by lia. cbn [bind]. destruct (nth k aRL (0, 0)) as (r & q) eqn:Ek. apply wp_vset; [lia|]. split; [lens; auto|]. intros c Hc. rewrite nth_upd by lia.
      destruct (Nat.eq_dec k c) as [<-|N]; [unfold ar; rewrite Ek; auto|apply H; lia].
    + intros v (Lv & Hv). rewrite vresize_length. rewrite (proj2 (Nat.eqb_neq _ 0)) by lia. cbn [negb assertb bind]. apply wp_some.
      assert (Hcm : forall I, I < nb -> nth I cI' 0 <= nth (S I) cI' 0) by (intros I HIi; destruct (HP I HIi) as (Ex & _); lia).
      pose proof (C_mono (fun k => nth k cI' 0) nb Hcm) as Hcmono. cbn beta in Hcmono. fold n in Hcmono.
      assert (HP' : forall I, I < nb -> rowP (fun k => nth k cI' 0) (fun k => nth k dI' 0) (fun c => nth c v 0) (al aRL) I) by (apply (rowP_ext (fun k => nth k cI' 0) (fun k => nth k dI' 0) (ar aRL) (al aRL)); auto).
      clear HP. unfold iluk_post, pattern_ok, values_ok, stored, cI, dI, cp. cbn [nblk ndim colInd diaInd rowPtr valCrs valDia].
      split; [|split; [|split; [|split]]]; auto.
      * split; auto. split; auto. split; auto. split; [rewrite Lv; auto|]. split; [|split; [|split]].
        -- intros I HI. apply HP'; auto.
        -- intros I c HI. destruct (HP' I HI) as (_ & B & _). apply B.
        -- intros I c HI. destruct (HP' I HI) as (_ & _ & B & _). apply B.
        -- intros I c c' HI. destruct (HP' I HI) as (_ & _ & _ & B & _). apply B.
      * split; [rewrite repeat_length, Lv; auto|auto].
      * exists (al aRL). split; [|split].
        -- intros I J HI. destruct (HP' I HI) as (_ & _ & _ & _ & B & _). apply B.
        -- intros I c HI Hc. destruct (HP' I HI) as (_ & _ & _ & _ & _ & B & _). apply B. auto.
        -- intros I c c' HI Hc HcI Hb Hc' HkJ Hn Hb'. destruct (HP' I HI) as (_ & _ & _ & _ & _ & _ & B).
           assert (Hd : nth (nth c v 0) dI' 0 <= c'). { assert (Hkn : nth c v 0 < nb) by lia. destruct (HP' _ Hkn) as (_ & B2 & _). destruct (Nat.le_gt_cases (nth (nth c v 0) dI' 0) c') as [|Hlt]; auto. assert (nth c' v 0 < nth c v 0) by (apply B2; lia). lia. }
           apply (B c c'); auto; try (apply below_deep; auto). lia.
Qed.
End I.

Lemma Initialize_ok : forall K (P0 : ilu K) (m : matsp K) lev_fill, wf m -> square m -> simple_rows m -> ci m 0 = 0 -> (forall I, I < nrowblk m -> ci m I < ci m (S I)) -> nth 0 (colInd P0) 0 = 0 -> 0 < nrowblk m -> 0 < nrowdim m -> lev_fill <> Some 0 ->
  wp (Initialize_ILUk K P0 m lev_fill) (iluk_post K m lev_fill).
Proof.
  intros K P0 m lf H1 H2 H3 H30 H4 H5 H6 H7 H8.
  assert (E : Initialize_ILUk K P0 m lf = Initialize_levels K P0 m lf) by (destruct lf as [[|]|]; auto; congruence). rewrite E.
  apply Initialize_fixedQ; auto.
Qed.
