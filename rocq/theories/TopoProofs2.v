From Coq Require Import List Arith Lia Bool.
Import ListNotations.
From Verif Require Import Imp JagModel JagSpec JagProofs JagProofs2 TopoModel TopoSpec.

Definition nun (flag : nat) (fl : list (option nat)) : nat := length (filter (fun o => negb (onat_eqb o flag)) fl).

Lemma nun_upd : forall flag fl i, i < length fl -> onat_eqb (nth i fl None) flag = false ->
  S (nun flag (upd fl i (Some flag))) = nun flag fl.
Proof.
  unfold nun. induction fl; simpl; intros; [lia|].
  destruct i; simpl in *.
  - rewrite H0, Nat.eqb_refl. simpl. auto.
  - destruct (onat_eqb a flag); simpl; rewrite IHfl; auto; lia.
Qed.

Lemma nun_le : forall flag fl, nun flag fl <= length fl.
Proof. unfold nun. intros. induction fl; simpl; auto. destruct (negb (onat_eqb a flag)); simpl; lia. Qed.

Lemma onat_eqb_false : forall o n, onat_eqb o n = false <-> o <> Some n.
Proof.
  intros. rewrite <- onat_eqb_true. destruct (onat_eqb o n); split; intros; try congruence; auto.
Qed.

Lemma Mark_correct : forall fl0 ker flag adj nel nf,
  length fl0 = nel -> ker < nel -> adj_ok adj nel nf ->
  exists fl, MarkConnectedElements fl0 ker flag adj = Some fl /\ length fl = nel /\
    forall j, j < nel ->
      (reach (mark_step adj nf fl0 flag) ker j -> nth j fl None = Some flag) /\
      (~ reach (mark_step adj nf fl0 flag) ker j -> nth j fl None = nth j fl0 None) /\
      (nth j fl None = nth j fl0 None \/ reach (mark_step adj nf fl0 flag) ker j).
Proof.
  intros fl0 ker flag adj nel nf Hl Hk (Hadj & Hadjb).
  set (R := mark_step adj nf fl0 flag).
  assert (wp (MarkConnectedElements fl0 ker flag adj) (fun fl => length fl = nel /\
    forall j, j < nel ->
      (reach R ker j -> nth j fl None = Some flag) /\
      (~ reach R ker j -> nth j fl None = nth j fl0 None) /\
      (nth j fl None = nth j fl0 None \/ reach R ker j))).
  2:{ apply wp_ex in H. destruct H as (fl & E & H). exists fl. tauto. }
  unfold MarkConnectedElements. rewrite Hl.
  apply wp_bind. apply wp_assertb. { destruct nel; [lia|reflexivity]. }
  assert (Enf : length adj / nel = nf). { rewrite Hadj, Nat.mul_comm. apply Nat.div_mul. lia. }
  rewrite Enf.
  apply wp_bind. apply wp_vset; [lia|]. apply wp_bind.
  set (Inv := fun (s : list (option nat) * list nat) => let '(fl, st) := s in
     length fl = nel /\
     (forall j, j < nel -> nth j fl None = nth j fl0 None \/ (nth j fl None = Some flag /\ reach R ker j)) /\
     nth ker fl None = Some flag /\
     (forall j, In j st -> j < nel /\ reach R ker j /\ nth j fl None = Some flag) /\
     (forall j b, j < nel -> reach R ker j -> nth j fl None = Some flag -> ~ In j st -> adj_step adj nf j b ->
        nth b fl None = Some flag)).
  assert (HR0 : forall j, j < nel -> j <> ker -> reach R ker j -> nth j fl0 None <> Some flag).
  { intros j Hj Hne Hr. inversion Hr; subst; [tauto|]. destruct H0. auto. }
  assert (Hbl : forall a b, adj_step adj nf a b -> b < nel).
  { intros a b (i & Hi & E). eapply Hadjb; eauto. }
  apply (wp_whilef _ (fun s => length (snd s) + nun flag (fst s)) Inv).
  - simpl. pose proof (nun_le flag (upd fl0 ker (Some flag))). rewrite upd_length in H. lia.
  - simpl. split; [lens; auto|]. split.
    + intros j Hj. rewrite nth_upd by lia. destruct (Nat.eq_dec ker j); auto. subst. right. split; auto. constructor.
    + split. rewrite nth_upd_same by lia. auto. split.
      * intros j [<-|[]]. split; auto. split. constructor. rewrite nth_upd_same by lia. auto.
      * intros j b Hj Hr Hf Hni Hs. exfalso. assert (j <> ker) by (intro; subst; apply Hni; left; auto).
        rewrite nth_upd_other in Hf by auto. eapply HR0; eauto.
  - intros [fl st] (HL & HA & HB & HC & HD) Hc. simpl in Hc. destruct st as [|cur st]; [discriminate|].
    split; [simpl; lia|].
    destruct (HC cur) as (Hcur & Hrc & Hfc); [left; auto|].
    apply (wp_forn _ (fun i s => let '(fl', st') := s in
       length fl' = nel /\
       (forall j, j < nel -> nth j fl' None = nth j fl0 None \/ (nth j fl' None = Some flag /\ reach R ker j)) /\
       (forall j, j < nel -> nth j fl None = Some flag -> nth j fl' None = Some flag) /\
       (forall j, In j st' -> j < nel /\ reach R ker j /\ nth j fl' None = Some flag) /\
       (forall j b, j < nel -> j <> cur -> reach R ker j -> nth j fl' None = Some flag -> ~ In j st' -> adj_step adj nf j b ->
        nth b fl' None = Some flag) /\
       (forall k b, k < i -> nth_error adj (cur * nf + k) = Some (Some b) -> nth b fl' None = Some flag) /\
       length st' + nun flag fl' = length st + nun flag fl)); [lia| | |].
    + split; auto. split; auto. split; auto. split. intros j Hj. apply HC. right; auto.
      split. intros j b Hj Hne Hr Hf Hni Hs. eapply HD; eauto. intros [<-|Hin]; auto.
      split; auto. intros; lia.
    + intros i [fl' st'] Hi (HL' & HA' & HM' & HC' & HD' & HE' & Hm').
      assert (Hidx : cur * nf + i < length adj) by (rewrite Hadj; nia).
      apply wp_bind. apply wp_vget_e; auto. intros ita Hita.
      destruct ita as [b|].
      * assert (Hb : b < nel) by (eapply Hadjb; eauto).
        assert (Hstep : adj_step adj nf cur b) by (exists i; split; auto; lia).
        apply wp_bind. apply (wp_vget _ None); [lia|].
        destruct (onat_eqb (nth b fl' None) flag) eqn:Ef.
        -- apply wp_some. apply onat_eqb_true in Ef.
           split; auto. split; auto. split; auto. split; auto. split; auto. split; auto.
           intros k b' Hk' Hn. destruct (Nat.eq_dec k i).
           ++ subst. congruence.
           ++ eapply HE'; [|eauto]. lia.
        -- pose proof Ef as Ef'. apply onat_eqb_false in Ef.
           apply wp_bind. apply wp_vset; [lia|]. apply wp_some.
           assert (Hfb0 : nth b fl0 None <> Some flag).
           { destruct (HA' b Hb) as [E|(E & _)]; congruence. }
           assert (Hrb : reach R ker b). { econstructor; [exact Hrc|]. split; auto. }
           assert (Hmono : forall j, nth j fl' None = Some flag -> nth j (upd fl' b (Some flag)) None = Some flag).
           { intros j Hj. rewrite nth_upd by lia. destruct (Nat.eq_dec b j); auto. }
           split; [lens; auto|]. split.
           { intros j Hj. rewrite nth_upd by lia. destruct (Nat.eq_dec b j); auto. subst. right; auto. }
           split. { intros. apply Hmono. apply HM'; auto. }
           split. { intros j [<-|Hj]. split; auto. split; auto. rewrite nth_upd_same by lia; auto.
                    destruct (HC' j Hj) as (X & Y & Z). auto. }
           split. { intros j b' Hj Hne Hr Hf Hni Hs. apply Hmono. apply HD' with (j := j); auto.
                    - rewrite nth_upd_other in Hf; auto. intro; subst; apply Hni; left; auto.
                    - intro; apply Hni; right; auto. }
           split. { intros k b' Hk' Hn. destruct (Nat.eq_dec k i).
                    - subst. rewrite Hita in Hn. inversion Hn; subst. rewrite nth_upd_same by lia. auto.
                    - apply Hmono. eapply HE'; [|eauto]. lia. }
           pose proof (nun_upd flag fl' b ltac:(lia) Ef'). simpl. lia.
      * apply wp_some. split; auto. split; auto. split; auto. split; auto. split; auto. split; auto.
        intros k b' Hk' Hn. destruct (Nat.eq_dec k i). subst. congruence. eapply HE'; [|eauto]. lia.
    + intros [fl' st'] (HL' & HA' & HM' & HC' & HD' & HE' & Hm'). split; [|simpl; lia].
      split; auto. split; auto. split; [auto|]. split; auto.
      intros j b Hj Hr Hf Hni Hs. destruct (Nat.eq_dec j cur).
      * subst. destruct Hs as (k & Hk' & E). eapply HE'; eauto.
      * eapply HD'; eauto.
  - intros [fl st] (HL & HA & HB & HC & HD) Hc. simpl in Hc. destruct st; [|discriminate].
    apply wp_some. split; auto.
    assert (Hall : forall j, reach R ker j -> nth j fl None = Some flag).
    { intros j Hr. assert (X : forall a, reach R a j -> a = ker -> j < nel /\ nth j fl None = Some flag).
      { clear Hr. intros a Hr. induction Hr; intros; subst; auto.
        destruct (IHHr HB HC HD eq_refl) as (Hbl' & Hfb) || destruct (IHHr eq_refl) as (Hbl' & Hfb).
        destruct H as (Hs & Hne). split. eapply Hbl; eauto. eapply HD; eauto. }
      apply (X ker Hr eq_refl). }
    intros j Hj. split; auto. destruct (HA j Hj) as [E|(E & Hr)]; split; auto. tauto.
Qed.

Lemma reach_trans : forall R a b c, reach R a b -> reach R b c -> reach R a c.
Proof. intros R a b c H1 H2. revert H1. induction H2; intros H1; auto. apply reach_step with b; auto. Qed.

Lemma reach_sym : forall (R : nat -> nat -> Prop), (forall a b, R a b -> R b a) -> forall a b, reach R a b -> reach R b a.
Proof.
  intros R HS a b H. induction H. constructor.
  eapply reach_trans; [|exact IHreach]. apply reach_step with c; [constructor|]. auto.
Qed.

Lemma reach_mono : forall (R S : nat -> nat -> Prop), (forall a b, R a b -> S a b) -> forall a b, reach R a b -> reach S a b.
Proof. intros R S H a b Hr. induction Hr. constructor. apply reach_step with b; auto. Qed.

Lemma find_unflagged_ok : forall nelem fl, length fl = nelem ->
  exists r, find_unflagged nelem fl = Some r /\ r <= nelem /\
    (r < nelem -> nth r fl None = None) /\ (r = nelem -> forall j, j < nelem -> nth j fl None <> None).
Proof.
  intros nelem fl Hl.
  assert (wp (find_unflagged nelem fl) (fun r => r <= nelem /\
    (r < nelem -> nth r fl None = None) /\ (r = nelem -> forall j, j < nelem -> nth j fl None <> None))).
  { unfold find_unflagged.
    apply (wp_forb _ (fun i r => r = i /\ forall j, j < i -> nth j fl None <> None)); [lia| | |].
    - split; auto. intros; lia.
    - intros i r Hi (-> & Hj). apply wp_bind. apply (wp_vget _ None); [lia|].
      destruct (nth i fl None) eqn:E; apply wp_some; cbn [fst snd].
      + split; auto. intros j Hji. destruct (Nat.eq_dec j i). subst. congruence. apply Hj; lia.
      + split; [lia|]. split; auto. intros; lia.
    - intros r (-> & Hj). split; auto. split; auto. intros; lia. }
  apply wp_ex in H. auto.
Qed.

Definition nnone (fl : list (option nat)) : nat := length (filter (fun o => match o with None => true | _ => false end) fl).

Lemma nnone_le : forall fl, nnone fl <= length fl.
Proof. unfold nnone. induction fl; simpl; auto. destruct a; simpl; lia. Qed.

Lemma nnone_lt : forall fl fl', length fl = length fl' ->
  (forall j, nth j fl' None = None -> nth j fl None = None) ->
  (exists j, j < length fl /\ nth j fl None = None /\ nth j fl' None <> None) -> nnone fl' < nnone fl.
Proof.
  assert (Hle : forall fl fl', length fl = length fl' ->
     (forall j, nth j fl' None = None -> nth j fl None = None) -> nnone fl' <= nnone fl).
  { unfold nnone. induction fl; destruct fl'; simpl; intros; try discriminate; auto.
    pose proof (IHfl fl' ltac:(lia) (fun j => H0 (S j))) as H1. pose proof (H0 0) as H2. simpl in H2.
    destruct a, o; simpl; try lia. discriminate H2; auto. }
  induction fl; intros fl' HL Hm (j & Hj & Hn & Hs); simpl in *; [lia|].
  destruct fl' as [|o fl']; [discriminate|].
  simpl in HL. unfold nnone in *. simpl. destruct j; simpl in *.
  - subst a. destruct o; [|tauto]. simpl. specialize (Hle fl fl' ltac:(lia) (fun j => Hm (S j))). lia.
  - assert (length (filter (fun o0 : option nat => match o0 with Some _ => false | None => true end) fl') <
            length (filter (fun o0 : option nat => match o0 with Some _ => false | None => true end) fl)).
    { apply IHfl; try lia. intros k. apply (Hm (S k)). exists j. split; [lia|auto]. }
    pose proof (Hm 0) as H2. simpl in H2.
    destruct a, o; simpl; try lia. discriminate H2; auto.
Qed.

Lemma MakeGroup_correct : forall nel nf adj,
  adj_ok adj nel nf -> (forall a b, a < nel -> adj_step adj nf a b -> adj_step adj nf b a) ->
  exists ng fl, MakeGroupElem nel adj = Some (ng, fl) /\ length fl = nel /\
    (forall e, e < nel -> exists g, g < ng /\ nth e fl None = Some g) /\
    (forall g, g < ng -> exists e, e < nel /\ nth e fl None = Some g) /\
    (forall a b, a < nel -> b < nel -> (nth a fl None = nth b fl None <-> reach (adj_step adj nf) a b)).
Proof.
  intros nel nf adj HA Hsym.
  assert (Hbl : forall a b, adj_step adj nf a b -> b < nel).
  { intros a b (i & Hi & E). destruct HA. eauto. }
  assert (Hal : forall a b, adj_step adj nf a b -> a < nel).
  { intros a b (i & Hi & E). destruct HA as (HL & _).
    assert (a * nf + i < length adj) by (apply nth_error_Some; congruence). nia. }
  assert (Hsym' : forall a b, reach (adj_step adj nf) a b -> reach (adj_step adj nf) b a).
  { apply reach_sym. intros. apply Hsym; eauto. }
  assert (wp (MakeGroupElem nel adj) (fun r => let '(ng, fl) := r in length fl = nel /\
    (forall e, e < nel -> exists g, g < ng /\ nth e fl None = Some g) /\
    (forall g, g < ng -> exists e, e < nel /\ nth e fl None = Some g) /\
    (forall a b, a < nel -> b < nel -> (nth a fl None = nth b fl None <-> reach (adj_step adj nf) a b)))).
  2:{ apply wp_ex in H. destruct H as ([ng fl] & E & H). exists ng, fl. tauto. }
  unfold MakeGroupElem.
  apply (wp_loopf _ (fun s => nnone (snd s)) (fun s => let '(ng, fl) := s in length fl = nel /\
    (forall e g, e < nel -> nth e fl None = Some g -> g < ng) /\
    (forall g, g < ng -> exists e, e < nel /\ nth e fl None = Some g) /\
    (forall a b g, a < nel -> b < nel -> nth a fl None = Some g ->
        (nth b fl None = Some g <-> reach (adj_step adj nf) a b)))).
  - simpl. pose proof (nnone_le (repeat None nel)). rewrite repeat_length in H. lia.
  - split. apply repeat_length. split. intros e g He. rewrite nth_repeat' by auto. discriminate.
    split. intros; lia. intros a b g Ha Hb. rewrite nth_repeat' by auto. discriminate.
  - intros [ng fl] (HL & Hlt & Huse & Hcl).
    destruct (find_unflagged_ok nel fl HL) as (r & Er & Hr1 & Hr2 & Hr3). rewrite Er. cbn [bind].
    destruct (Nat.eqb_spec r nel) as [He|Hne].
    + apply wp_some. cbn [fst snd]. split; auto. split.
      { intros e He'. specialize (Hr3 He e He'). destruct (nth e fl None) as [g|] eqn:Eg; [|congruence].
        exists g. split; auto. eapply Hlt; eauto. }
      split; auto. intros a b Ha Hb.
      specialize (Hr3 He a Ha). destruct (nth a fl None) as [g|] eqn:Eg; [|congruence].
      rewrite <- (Hcl a b g Ha Hb Eg). split; auto.
    + assert (Hrl : r < nel) by lia. specialize (Hr2 Hrl).
      destruct (Mark_correct fl r ng adj nel nf HL Hrl HA) as (fl' & E' & HL' & Hm).
      rewrite E'. cbn [bind]. apply wp_some. cbn [fst snd].
      assert (HRe : forall j, reach (mark_step adj nf fl ng) r j <-> reach (adj_step adj nf) r j).
      { intros j. split; apply reach_mono.
        - intros a b (H & _); auto.
        - intros a b H. split; auto. intro En. apply Hlt in En; [lia|]. eapply Hbl; eauto. }
      assert (Hnone : forall j, j < nel -> reach (adj_step adj nf) r j -> nth j fl None = None).
      { intros j Hj Hrj. destruct (nth j fl None) as [g|] eqn:Eg; auto.
        assert (nth r fl None = Some g). { apply (Hcl j r g); auto. } congruence. }
      assert (Hnew : forall j, j < nel -> nth j fl' None = Some ng <-> reach (adj_step adj nf) r j).
      { intros j Hj. destruct (Hm j Hj) as (H1 & H2 & H3). rewrite HRe in *. split; auto.
        intros En. destruct H3; auto. rewrite H in En. apply Hlt in En; auto. lia. }
      assert (Hold : forall j g, j < nel -> g <> ng -> nth j fl' None = Some g <-> nth j fl None = Some g).
      { intros j g Hj Hg. destruct (Hm j Hj) as (H1 & H2 & H3). rewrite HRe in *. split; intros En.
        - destruct H3 as [H3|H3]; [congruence|]. apply H1 in H3. congruence.
        - destruct H3 as [H3|H3]; [congruence|]. rewrite Hnone in En by auto. discriminate. }
      split.
      { split; auto. split.
        - intros e g He Hg. destruct (Nat.eq_dec g ng); [lia|]. apply Hold in Hg; auto. apply Hlt in Hg; auto.
        - split.
          + intros g Hg. destruct (Nat.eq_dec g ng).
            * subst. exists r. split; auto. apply Hnew; auto. constructor.
            * destruct (Huse g) as (e & He & Heg); [lia|]. exists e. split; auto. apply Hold; auto.
          + intros a b g Ha Hb Hg. destruct (Nat.eq_dec g ng).
            * subst. apply Hnew in Hg; auto. rewrite Hnew by auto. split; intros.
              -- eapply reach_trans; eauto.
              -- eapply reach_trans; eauto.
            * apply Hold in Hg; auto. rewrite Hold by auto. apply Hcl; auto. }
      apply nnone_lt; [lia| |].
      * intros j Hj. destruct (lt_dec j nel) as [Hjl|Hjl].
        -- destruct (Hm j Hjl) as (H1 & H2 & [H3|H3]); [congruence|]. rewrite H1 in Hj; auto. discriminate.
        -- apply nth_overflow. lia.
      * exists r. split; [lia|]. split; auto. assert (nth r fl' None = Some ng) by (apply Hnew; auto; constructor). congruence.
Qed.
