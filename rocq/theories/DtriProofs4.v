From Coq Require Import List Arith Lia Bool.
Import ListNotations.
From Verif Require Import Imp DtriModel DtriSpec DtriProofs1 DtriProofs2 DtriProofs3.

(* ---------- moves around a point ---------- *)

Lemma MoveCCW_some : forall m t i j k, tri_ok m -> t < length m -> i < 3 -> twin m t (nx i) j k ->
  MoveCCW t i None m = Some (Some (j, nx k)).
Proof.
  intros m t i j k H Ht Hi HT. pose proof HT as (_ & Hk & E1 & E2 & E3 & E4).
  assert (Hj : j < length m) by (apply (L_lt m t (nx i)); auto).
  unfold MoveCCW. rewrite (vget_nth _ dtri0) by auto. cbn [bind]. change ((i + 1) mod 3) with (nx i).
  rewrite gs_lnk by auto. cbn [bind]. change (lnk (nth t m dtri0) (nx i)) with (L m t (nx i)). rewrite E1.
  cbn [onat_eq bind]. rewrite (vget_nth _ dtri0) by auto. cbn [bind].
  rewrite (FindAdj_ok m m t (nx i) j k) by auto. cbn [bind]. change ((k + 1) mod 3) with (nx k).
  rewrite !gv_vtx by auto. cbn [bind].
  change (vtx (nth t m dtri0) i) with (V m t i). change (vtx (nth j m dtri0) (nx k)) with (V m j (nx k)).
  rewrite pvnx in E4 by auto. rewrite E4, Nat.eqb_refl. reflexivity.
Qed.

Lemma MoveCCW_none : forall m t i, t < length m -> i < 3 -> L m t (nx i) = None -> MoveCCW t i None m = Some None.
Proof.
  intros m t i Ht Hi E. unfold MoveCCW. rewrite (vget_nth _ dtri0) by auto. cbn [bind].
  change ((i + 1) mod 3) with (nx i). rewrite gs_lnk by auto. cbn [bind].
  change (lnk (nth t m dtri0) (nx i)) with (L m t (nx i)). rewrite E. reflexivity.
Qed.

Lemma MoveCW_some : forall m t i j k, tri_ok m -> t < length m -> i < 3 -> twin m t (pv i) j k ->
  MoveCW t i None m = Some (Some (j, pv k)).
Proof.
  intros m t i j k H Ht Hi HT. pose proof HT as (_ & Hk & E1 & E2 & E3 & E4).
  assert (Hj : j < length m) by (apply (L_lt m t (pv i)); auto).
  unfold MoveCW. rewrite (vget_nth _ dtri0) by auto. cbn [bind]. change ((i + 2) mod 3) with (pv i).
  rewrite gs_lnk by auto. cbn [bind]. change (lnk (nth t m dtri0) (pv i)) with (L m t (pv i)). rewrite E1.
  cbn [onat_eq bind]. rewrite (vget_nth _ dtri0) by auto. cbn [bind].
  rewrite (FindAdj_ok m m t (pv i) j k) by auto. cbn [bind]. change ((k + 2) mod 3) with (pv k).
  rewrite !gv_vtx by auto. cbn [bind].
  change (vtx (nth t m dtri0) i) with (V m t i). change (vtx (nth j m dtri0) (pv k)) with (V m j (pv k)).
  rewrite nxpv in E3 by auto. rewrite E3, Nat.eqb_refl. reflexivity.
Qed.

Lemma MoveCW_none : forall m t i, t < length m -> i < 3 -> L m t (pv i) = None -> MoveCW t i None m = Some None.
Proof.
  intros m t i Ht Hi E. unfold MoveCW. rewrite (vget_nth _ dtri0) by auto. cbn [bind].
  change ((i + 2) mod 3) with (pv i). rewrite gs_lnk by auto. cbn [bind].
  change (lnk (nth t m dtri0) (pv i)) with (L m t (pv i)). rewrite E. reflexivity.
Qed.

Lemma Move_lem : forall m t i, tri_ok m -> t < length m -> i < 3 ->
  (match L m t (nx i) with
   | None => MoveCCW t i None m = Some None
   | Some j => exists c, MoveCCW t i None m = Some (Some (j, c)) /\ j < length m /\ c < 3 /\ V m j c = V m t i /\
                 MoveCW j c None m = Some (Some (t, i))
   end) /\
  (match L m t (pv i) with
   | None => MoveCW t i None m = Some None
   | Some j => exists c, MoveCW t i None m = Some (Some (j, c)) /\ j < length m /\ c < 3 /\ V m j c = V m t i /\
                 MoveCCW j c None m = Some (Some (t, i))
   end).
Proof.
  intros m t i H Ht Hi. split.
  - destruct (L m t (nx i)) as [j|] eqn:E; [|apply MoveCCW_none; auto].
    destruct (L_twin m t (nx i) j) as (k & HT); auto. pose proof HT as (_ & Hk & _ & _ & E3 & E4).
    assert (Hj : j < length m) by (apply (L_lt m t (nx i)); auto).
    exists (nx k). split; [apply MoveCCW_some; auto|]. split; auto. split; auto. split.
    + rewrite <- E4. rewrite pvnx by auto. auto.
    + rewrite (MoveCW_some m j (nx k) t (nx i)); auto. rewrite pvnx by auto. auto.
      rewrite pvnx by auto. apply twin_sym. auto.
  - destruct (L m t (pv i)) as [j|] eqn:E; [|apply MoveCW_none; auto].
    destruct (L_twin m t (pv i) j) as (k & HT); auto. pose proof HT as (_ & Hk & _ & _ & E3 & E4).
    assert (Hj : j < length m) by (apply (L_lt m t (pv i)); auto).
    exists (pv k). split; [apply MoveCW_some; auto|]. split; auto. split; auto. split.
    + rewrite <- E3. rewrite nxpv by auto. auto.
    + rewrite (MoveCCW_some m j (pv k) t (pv i)); auto. rewrite nxpv by auto. auto.
      rewrite nxpv by auto. apply twin_sym. auto.
Qed.

(* ---------- deletion ---------- *)

Lemma removelast_length : forall A (l : list A), length (removelast l) = length l - 1.
Proof.
  induction l as [|a l IH]; auto. simpl. destruct l; auto. simpl in *. rewrite IH. lia.
Qed.
Lemma removelast_nth : forall A (d : A) l i, i < length l - 1 -> nth i (removelast l) d = nth i l d.
Proof.
  induction l as [|a l IH]; intros i Hi; [simpl in Hi; lia|]. destruct l; [simpl in Hi; lia|].
  destruct i; auto. simpl. apply IH. simpl in *. lia.
Qed.

Section Del.
Variables (po : list dpnt) (m : list dtri) (x : nat).
Hypothesis HC : consistent po m.
Hypothesis Hx : x < length m.
Hypothesis Hiso : forall i, i < 3 -> L m x i = None.
Hypothesis Hpt : forall p, p < length po -> pe (nth p po (mkP None 0)) <> Some x.
Let n := length m.
Let o t := if Nat.eq_dec t x then n - 1 else t.
Let ren j := if Nat.eq_dec j (n - 1) then x else j.

Lemma del_nolink : forall t i, t < n -> i < 3 -> L m t i <> Some x.
Proof.
  intros t i Ht Hi E. destruct HC as (HT & _). destruct (L_twin m t i x) as (k & _ & Hk & _ & X & _); auto.
  rewrite Hiso in X by auto. discriminate.
Qed.

Lemma ren_o : forall t, t < n - 1 -> ren (o t) = t.
Proof. intros t Ht. unfold ren, o. repeat destruct Nat.eq_dec; lia. Qed.
Lemma o_ren : forall j, j < n -> j <> x -> o (ren j) = j.
Proof. intros j Hj Hjx. unfold ren, o. repeat destruct Nat.eq_dec; lia. Qed.
Lemma o_lt : forall t, t < n - 1 -> o t < n.
Proof. intros t Ht. unfold o. destruct Nat.eq_dec; lia. Qed.
Lemma o_nx : forall t, t < n - 1 -> o t <> x.
Proof. intros t Ht. unfold o. destruct Nat.eq_dec; lia. Qed.
Lemma ren_lt : forall j, j < n -> j <> x -> ren j < n - 1.
Proof. intros j Hj Hjx. unfold ren. destruct Nat.eq_dec; fold n in Hx; lia. Qed.

Lemma del_tri_ok : forall f, length f = n - 1 ->
  (forall t i, t < n - 1 -> V f t i = V m (o t) i) ->
  (forall t i, t < n - 1 -> i < 3 -> L f t i = option_map ren (L m (o t) i)) -> tri_ok f.
Proof.
  intros f Hl HV HL t Ht. rewrite Hl in Ht. destruct HC as (HT & _). pose proof (o_lt t Ht) as Ho.
  destruct (HT (o t) Ho) as (Q1 & Q2 & Q3).
  split; [|split].
  - intros i j Hi Hj. rewrite !HV by auto. auto.
  - intros i j Hi Hj. rewrite !HL by auto. intros E Hn. apply Q2; auto.
    + destruct (L m (o t) i) as [a|] eqn:Ea, (L m (o t) j) as [b|] eqn:Eb; simpl in E; try discriminate; auto.
      inversion E as [E']. f_equal.
      assert (a < n /\ b < n) as (Ha & Hb) by (split; [apply (L_lt m (o t) i)|apply (L_lt m (o t) j)]; auto).
      assert (a <> x) by (intro; subst a; apply (del_nolink (o t) i); auto).
      assert (b <> x) by (intro; subst b; apply (del_nolink (o t) j); auto).
      rewrite <- (o_ren a), <- (o_ren b) by auto. congruence.
    + intro X. rewrite X in Hn. auto.
  - intros i j Hi. rewrite HL by auto. destruct (L m (o t) i) as [a|] eqn:Ea; simpl; [|discriminate].
    intro E; inversion E; subst j. clear E. destruct (Q3 i a Hi Ea) as (Ha & k & HTw).
    assert (Hax : a <> x) by (intro; subst a; apply (del_nolink (o t) i); auto).
    pose proof (ren_lt a Ha Hax). split; [lia|]. exists k.
    destruct HTw as (T1 & T2 & T3 & T4 & T5 & T6). unfold twin. rewrite !HL, !HV by auto. rewrite !o_ren by auto.
    repeat split; auto. rewrite Ea. auto. rewrite T4. simpl. f_equal. apply ren_o. auto.
Qed.

Lemma DeleteTri_lem :
  wp (DeleteTri x po m) (fun s => let '(po', f) := s in
    consistent po' f /\ length po' = length po /\ length f = n - 1 /\
    (forall t i, t < n - 1 -> V f t i = V m (o t) i) /\
    (forall t i, t < n - 1 -> i < 3 -> L f t i = option_map ren (L m (o t) i)) /\
    (forall q, q < length po -> pe (nth q po (mkP None 0)) <> None -> pe (nth q po' (mkP None 0)) <> None)).
Proof.
  pose proof HC as (HT & Hv & Hpe).
  unfold DeleteTri. destruct (Nat.leb_spec (length m) x) as [|_]; [lia|].
  apply wp_bind. apply (wp_vget _ dtri0); [auto|].
  apply wp_bind, wp_assertb.
  { pose proof (Hiso 0 ltac:(lia)) as I0. pose proof (Hiso 1 ltac:(lia)) as I1. pose proof (Hiso 2 ltac:(lia)) as I2.
    change (ts0 (nth x m dtri0)) with (L m x 0). change (ts1 (nth x m dtri0)) with (L m x 1).
    change (ts2 (nth x m dtri0)) with (L m x 2). rewrite I0, I1, I2. reflexivity. }
  fold n. fold n in Hx.
  destruct (Nat.eqb_spec x (n - 1)) as [Ex|Ex].
  - (* the last triangle *)
    apply wp_some.
    assert (Hl : length (removelast m) = n - 1) by (apply removelast_length).
    assert (HV : forall t i, t < n - 1 -> V (removelast m) t i = V m (o t) i).
    { intros t i Ht. unfold V. rewrite removelast_nth by auto. unfold o. destruct Nat.eq_dec; [lia|]. auto. }
    assert (HL : forall t i, t < n - 1 -> i < 3 -> L (removelast m) t i = option_map ren (L m (o t) i)).
    { intros t i Ht Hi. unfold L at 1. rewrite removelast_nth by auto. unfold o. destruct Nat.eq_dec; [lia|].
      fold (L m t i). destruct (L m t i) as [j|] eqn:E; auto. simpl. f_equal. unfold ren. destruct Nat.eq_dec; auto. lia. }
    split; [split; [apply del_tri_ok; auto|split]|auto].
    + intros t i Ht Hi. rewrite Hl in Ht. rewrite HV by auto. apply Hv; auto. apply o_lt. auto.
    + intros p t Hp E. destruct (Hpe p t Hp E) as (A1 & A2 & A3).
      assert (t <> x) by (intro; subst t; apply (Hpt p); auto). fold n in A1.
      rewrite Hl. split; [lia|]. split; auto. rewrite HV by lia. unfold o. destruct Nat.eq_dec; [lia|]. auto.
  - apply wp_bind. apply (wp_vget _ dtri0); [fold n; lia|].
    apply wp_bind, wp_vset; [auto|].
    set (m0 := removelast _).
    assert (Hl0 : length m0 = n - 1) by (unfold m0; rewrite removelast_length; lens; auto).
    assert (HV0 : forall t i, t < n - 1 -> V m0 t i = V m (o t) i).
    { intros t i Ht. unfold m0, V. rewrite removelast_nth by (lens; auto). rewrite nth_upd by auto.
      unfold o. destruct (Nat.eq_dec x t), (Nat.eq_dec t x); try lia; auto. }
    assert (HL0 : forall t i, t < n - 1 -> L m0 t i = L m (o t) i).
    { intros t i Ht. unfold m0, L. rewrite removelast_nth by (lens; auto). rewrite nth_upd by auto.
      unfold o. destruct (Nat.eq_dec x t), (Nat.eq_dec t x); try lia; auto. }
    assert (Hn1 : n - 1 < n) by lia.
    assert (OX : o x = n - 1) by (unfold o; destruct Nat.eq_dec; lia).
    apply wp_bind.
    apply (wp_forn _ (fun i f => length f = n - 1 /\ (forall t c, t < n - 1 -> V f t c = V m (o t) c) /\
       (forall t c, t < n - 1 -> c < 3 ->
          (forall i', i' < i -> twin m (n - 1) i' (o t) c -> L f t c = Some x) /\
          ((forall i', i' < i -> ~ twin m (n - 1) i' (o t) c) -> L f t c = L m (o t) c)))).
    + lia.
    + split; auto. split; auto. intros t c Ht Hc. split; [intros; lia|]. intros _. apply HL0. auto.
    + intros i f Hi (Hl & HV & HL).
      apply wp_bind. apply (wp_vget _ dtri0); [lia|].
      assert (Ex' : nth x f dtri0 = nth (n - 1) m dtri0).
      { apply dtri_eta; intros c Hc.
        - change (V f x c = V m (n - 1) c). rewrite HV by lia. rewrite OX. auto.
        - change (L f x c = L m (n - 1) c). destruct (HL x c) as (_ & X); auto; [lia|]. rewrite X, OX; auto.
          intros i' Hi'. rewrite OX. apply not_twin_self; auto. lia. }
      rewrite Ex'. rewrite gs_lnk by lia. cbn [bind]. change (lnk (nth (n-1) m dtri0) i) with (L m (n-1) i).
      destruct (L m (n - 1) i) as [j|] eqn:Ej.
      * destruct (L_twin m (n-1) i j HT Hn1 ltac:(lia) Ej) as (k & HTw).
        assert (Hj : j < n) by (apply (L_lt m (n-1) i); auto; lia).
        assert (Hjn : j <> n - 1) by (intro; subst j; apply (no_self m (n-1) i); auto; lia).
        assert (Hjx : j <> x) by (intro; subst j; apply (del_nolink (n-1) i); auto; lia).
        assert (Oj : o j = j) by (unfold o; destruct Nat.eq_dec; lia).
        assert (Hk : k < 3) by apply HTw.
        rewrite (FindAdj_ok m f (n-1) i j k); auto; [|lia|intros c Hc; rewrite HV, Oj by lia; auto].
        cbn [bind]. apply wp_bind, wp_assertb; [apply Nat.ltb_lt; lia|].
        apply wp_bind. apply (wp_vget _ dtri0); [lia|]. rewrite gs_lnk by auto. cbn [bind].
        change (lnk (nth j f dtri0) k) with (L f j k).
        assert (Lj : L f j k = Some (n - 1)).
        { destruct (HL j k) as (_ & X); [lia|auto|]. rewrite X, Oj. apply HTw.
          intros i' Hi' HTw'. rewrite Oj in HTw'.
          pose proof (twin_sym _ _ _ _ _ HTw) as S1. pose proof (twin_sym _ _ _ _ _ HTw') as S2.
          destruct (twin_fun m j k _ _ _ _ HT Hj S1 S2). lia. }
        rewrite Lj. apply wp_bind, wp_assertb; [destruct (onat_eqP (Some (n-1)) (Some (n-1))); auto|].
        rewrite set_s2_ok by (auto; lia). apply wp_some. split; [lens; auto|]. split.
        { intros t c Ht. rewrite V_upd by lia. destruct Nat.eq_dec; [subst t|auto]. rewrite vtx_setl. apply HV. auto. }
        intros t c Ht Hc. destruct (HL t c Ht Hc) as (P1 & P2). rewrite L_upd by lia.
        destruct (Nat.eq_dec j t) as [<-|Hne].
        -- rewrite lnk_setl by auto. change (lnk (nth j f dtri0) c) with (L f j c). rewrite Oj in *.
           destruct (Nat.eq_dec k c) as [<-|Hkc].
           ++ split; auto. intros Hno. exfalso. apply (Hno i); auto.
           ++ split.
              ** intros i' Hi' HTw'. destruct (Nat.eq_dec i' i) as [->|]; [|apply (P1 i'); auto; lia].
                 destruct (twin_fun m (n-1) i _ _ _ _ HT Hn1 HTw HTw'). lia.
              ** intros Hno. apply P2. intros i' Hi'. apply Hno. lia.
        -- change (lnk (nth t f dtri0) c) with (L f t c). split.
           ++ intros i' Hi' HTw'. destruct (Nat.eq_dec i' i) as [->|]; [|apply (P1 i'); auto; lia].
              exfalso. destruct (twin_fun m (n-1) i _ _ _ _ HT Hn1 HTw HTw') as (X & _).
              unfold o in X. destruct Nat.eq_dec; lia.
           ++ intros Hno. apply P2. intros i' Hi'. apply Hno. lia.
      * apply wp_some. split; auto. split; auto. intros t c Ht Hc. destruct (HL t c Ht Hc) as (P1 & P2). split.
        -- intros i' Hi' HTw'. destruct (Nat.eq_dec i' i) as [->|]; [|apply (P1 i'); auto; lia].
           destruct HTw' as (_ & _ & X & _). congruence.
        -- intros Hno. apply P2. intros i' Hi'. apply Hno. lia.
    + intros f (Hl & HV & HL).
      assert (HLf : forall t i, t < n - 1 -> i < 3 -> L f t i = option_map ren (L m (o t) i)).
      { intros t i Ht Hi. destruct (HL t i Ht Hi) as (P1 & P2). pose proof (o_lt t Ht) as Ho.
        destruct (L m (o t) i) as [j|] eqn:E; simpl.
        - unfold ren. destruct (Nat.eq_dec j (n - 1)) as [->|Hj].
          + destruct (L_twin m (o t) i (n-1) HT Ho Hi E) as (k & HTw). apply twin_sym in HTw.
            apply (P1 k); auto. apply HTw.
          + rewrite P2; auto. intros i' _ (_ & _ & _ & X & _). congruence.
        - rewrite P2; auto. intros i' _ (_ & _ & _ & X & _). congruence. }
      apply wp_bind. apply (wp_vget _ dtri0); [lia|].
      apply wp_bind.
      apply (wp_forn _ (fun i po' => length po' = length po /\
        forall q, q < length po ->
          (forall i', i' < i -> V m (n-1) i' = q -> nth q po' (mkP None 0) = mkP (Some x) i') /\
          ((forall i', i' < i -> V m (n-1) i' <> q) -> nth q po' (mkP None 0) = nth q po (mkP None 0)))).
      * lia.
      * split; auto. intros q Hq. split; auto. intros; lia.
      * intros i po' Hi (Lp & HP). rewrite gv_vtx by lia. cbn [bind].
        change (vtx (nth x f dtri0) i) with (V f x i). rewrite HV, OX by lia.
        assert (Hvi : V m (n-1) i < length po) by (apply Hv; auto; lia).
        apply wp_vset; [lia|]. split; [lens; auto|]. intros q Hq. destruct (HP q Hq) as (P1 & P2).
        rewrite nth_upd by lia. destruct (Nat.eq_dec (V m (n-1) i) q) as [Eq|Eq].
        -- split.
           ++ intros i' Hi' Eq'. f_equal. destruct (HT (n-1) Hn1) as (D & _). apply D; auto; try lia; congruence.
           ++ intros Hno. exfalso. apply (Hno i); auto; lia.
        -- split.
           ++ intros i' Hi' Eq'. apply P1; auto. destruct (Nat.eq_dec i' i); [subst; tauto|lia].
           ++ intros Hno. apply P2. intros; apply Hno; lia.
      * intros po' (Lp & HP). apply wp_some. split; [split; [apply del_tri_ok; auto|split]|].
        -- intros t i Ht Hi. rewrite Hl in Ht. rewrite HV by auto. rewrite Lp. apply Hv; auto. apply o_lt. auto.
        -- rewrite Lp, Hl. intros p t Hp E. destruct (HP p Hp) as (P1 & P2).
           assert (Dec : (exists i', i' < 3 /\ V m (n-1) i' = p) \/ (forall i', i' < 3 -> V m (n-1) i' <> p)).
           { destruct (Nat.eq_dec (V m (n-1) 0) p); [left; exists 0; auto|].
             destruct (Nat.eq_dec (V m (n-1) 1) p); [left; exists 1; auto|].
             destruct (Nat.eq_dec (V m (n-1) 2) p); [left; exists 2; auto|].
             right. intros i' Hi'. c3 i'; auto. }
           destruct Dec as [(i' & Hi' & Ei)|Hno].
           ++ rewrite (P1 i') in * by auto. simpl in *. inversion E; subst t. split; [lia|]. split; auto.
              rewrite HV, OX by lia. auto.
           ++ rewrite P2 in * by auto. destruct (Hpe p t Hp E) as (A1 & A2 & A3).
              assert (t <> x) by (intro; subst t; apply (Hpt p); auto).
              assert (t <> n - 1) by (intro; subst t; apply (Hno _ A2); auto). fold n in A1.
              split; [lia|]. split; auto. rewrite HV by lia. unfold o. destruct Nat.eq_dec; [lia|]. auto.
        -- split; auto. split; auto. split; auto. split; auto.
           intros q Hq Hn. destruct (HP q Hq) as (P1 & P2).
           destruct (Nat.eq_dec (V m (n-1) 0) q); [rewrite (P1 0) by auto; simpl; congruence|].
           destruct (Nat.eq_dec (V m (n-1) 1) q); [rewrite (P1 1) by auto; simpl; congruence|].
           destruct (Nat.eq_dec (V m (n-1) 2) q); [rewrite (P1 2) by auto; simpl; congruence|].
           rewrite P2; auto. intros i' Hi'. c3 i'; auto.
Qed.
End Del.
