(** The walks of the edge collapse. *)
From Coq Require Import List Arith Lia Bool Relations.
Import ListNotations.
From Verif Require Import Imp DtriModel DtriSpec CollModel CollSpec DtriProofs1 DtriProofs2 DtriProofs4 CollProofs1.

Lemma get_v_ok : forall m t i, t < length m -> i < 3 -> get_v m t i = Some (V m t i).
Proof. intros. unfold get_v. rewrite (vget_nth _ dtri0) by auto. cbn [bind]. apply gv_vtx. auto. Qed.
Lemma get_s2_ok : forall m t i, t < length m -> i < 3 -> get_s2 m t i = Some (L m t i).
Proof. intros. unfold get_s2. rewrite (vget_nth _ dtri0) by auto. cbn [bind]. apply gs_lnk. auto. Qed.
Lemma adj_edge_ok : forall m t i j k, tri_ok m -> t < length m -> twin m t i j k -> adj_edge m t i = Some k.
Proof.
  intros m t i j k Hm Ht HT. unfold adj_edge. rewrite (vget_nth _ dtri0) by auto. cbn [bind].
  apply (FindAdj_ok m m t i j k); auto. apply (L_lt m t i j); auto; apply HT.
Qed.

Definition ring_body (ipo stop : nat) (aTri : list dtri) (st : nat * nat * list nat * bool) :=
    let '((jtri, jnoel), ring, _) := st in
    x <- get_v aTri jtri jnoel ;; assertb (x =? ipo) ;;;
    y <- get_v aTri jtri ((jnoel + 2) mod 3) ;;
    let ring := ring ++ [y] in
    mv <- MoveCCW jtri jnoel None aTri ;;
    match mv with
    | None => Some (((jtri, jnoel), ring, false), true)
    | Some (jtri, jnoel) => Some (((jtri, jnoel), ring, true), jtri =? stop)
    end.
Lemma coll_ring_eq : forall ipo jt jn stop m, coll_ring ipo jt jn stop m =
  ('(_, ring, ok) <- loopf (S (length m)) (ring_body ipo stop m) ((jt, jn), [], false) ;;
   Some (if ok : bool then Some ring else None)).
Proof. reflexivity. Qed.

Section Ring.
Variable m : list dtri.
Hypothesis Hm : tri_ok m.

Lemma ring_step : forall c ipo stop acc b, vc m c -> P m c = ipo ->
  (L m (fst c) (nx (snd c)) = None -> ring_body ipo stop m (c, acc, b) = Some ((c, acc ++ [far m c], false), true)) /\
  (forall c', turn m c c' -> ring_body ipo stop m (c, acc, b) = Some ((c', acc ++ [far m c], true), fst c' =? stop)).
Proof.
  intros (t, i) ipo stop acc b Vc E. pose proof Vc as (Ht & Hi). cbn [fst snd] in *. unfold P in E. cbn [fst snd] in E.
  change ((i + 2) mod 3) with (pv i).
  split.
  - intros N. unfold ring_body. rewrite get_v_ok by auto. cbn [bind]. rewrite E, Nat.eqb_refl. cbn [assertb bind].
    change ((i + 2) mod 3) with (pv i). rewrite get_v_ok by auto. cbn [bind].
    pose proof (MoveCCW_stop m (t, i) None Vc N) as X. cbn [fst snd] in X. rewrite X. reflexivity.
  - intros c' T. unfold ring_body. rewrite get_v_ok by auto. cbn [bind]. rewrite E, Nat.eqb_refl. cbn [assertb bind].
    change ((i + 2) mod 3) with (pv i). rewrite get_v_ok by auto. cbn [bind].
    pose proof (turn_vc m Hm _ _ Vc T) as Vc'.
    pose proof (MoveCCW_go m (t, i) c' None Vc Vc' T ltac:(discriminate) (proj1 (Hm _ Ht)) (proj1 (Hm _ (proj1 Vc')))) as X.
    cbn [fst snd] in X. rewrite X. cbn [bind]. destruct c' as (t', i'). reflexivity.
Qed.

Lemma ring_run : forall ipo stop l c fuel acc b, vc m c -> P m c = ipo -> path m c l -> (forall x, In x l -> fst x <> stop) ->
  length l < fuel ->
  (L m (fst (lastc c l)) (nx (snd (lastc c l))) = None ->
     loopf fuel (ring_body ipo stop m) (c, acc, b) = Some (lastc c l, acc ++ map (far m) (c :: l), false)) /\
  (forall c', turn m (lastc c l) c' -> fst c' = stop ->
     loopf fuel (ring_body ipo stop m) (c, acc, b) = Some (c', acc ++ map (far m) (c :: l), true)).
Proof.
  intros ipo stop. induction l as [|a l IH]; intros c fuel acc b Vc EP Hp Hs Hf; (destruct fuel as [|fuel]; [cbn in Hf; lia|]).
  - destruct (ring_step c ipo stop acc b Vc EP) as (R1 & R2). unfold lastc. cbn [last]. split.
    + intros N. cbn [loopf]. rewrite (R1 N). reflexivity.
    + intros c' T E. cbn [loopf]. rewrite (R2 c' T). cbn [bind]. rewrite E, Nat.eqb_refl. reflexivity.
  - destruct Hp as (T & Hp). rewrite lastc_cons. pose proof (turn_vc m Hm _ _ Vc T) as Va.
    destruct (ring_step c ipo stop acc b Vc EP) as (_ & R2). specialize (R2 a T).
    assert (Ea : (fst a =? stop) = false) by (apply Nat.eqb_neq; apply Hs; left; auto). rewrite Ea in R2.
    destruct (IH a fuel (acc ++ [far m c]) true Va) as (I1 & I2); auto.
    { rewrite (turn_P m c a); auto. }
    { intros x Hx. apply Hs. right; auto. }
    { cbn in Hf. lia. }
    rewrite <- app_assoc in I1, I2. cbn [app] in I1, I2.
    split; intros; cbn [loopf]; rewrite R2; cbn [bind]; auto.
Qed.
End Ring.

Definition fan_body (ipoZ itD : nat) (aTri : list dtri) (st : nat * nat * list (nat * nat)) :=
    let '((jtri, jnoel), l) := st in
    let l := l ++ [(jtri, jnoel)] in
    x <- get_v aTri jtri jnoel ;; assertb (x =? ipoZ) ;;;
    mv <- MoveCCW jtri jnoel (Some itD) aTri ;;
    match mv with
    | None => Some (((jtri, jnoel), l), true)
    | Some c => Some ((c, l), false)
    end.
Lemma coll_fan_eq : forall ipo jt jn itD m, coll_fan ipo jt jn itD m =
  ('(_, l) <- loopf (S (length m)) (fan_body ipo itD m) ((jt, jn), []) ;; Some l).
Proof. reflexivity. Qed.

Lemma fan_run : forall m ipo itD l c fuel acc, vc m c -> P m c = ipo -> path m c l ->
  (forall x, In x l -> fst x <> itD) -> (forall x, In x l -> vc m x /\ P m x = ipo) ->
  (forall x, In x (c :: l) -> forall a b, a < 3 -> b < 3 -> V m (fst x) a = V m (fst x) b -> a = b) ->
  L m (fst (lastc c l)) (nx (snd (lastc c l))) = Some itD -> length l < fuel ->
  loopf fuel (fan_body ipo itD m) (c, acc) = Some (lastc c l, acc ++ c :: l).
Proof.
  intros m ipo itD. induction l as [|a l IH]; intros c fuel acc Vc EP Hp Hs Hv Hd HL Hf; (destruct fuel as [|fuel]; [cbn in Hf; lia|]);
    cbn [loopf]; destruct c as (t, i); pose proof Vc as (Ht & Hi); unfold P in EP; cbn [fst snd] in Ht, Hi, EP;
    unfold fan_body at 1; rewrite get_v_ok by auto; cbn [bind]; rewrite EP, Nat.eqb_refl; cbn [assertb bind].
  - unfold lastc in HL. cbn [last] in HL.
    pose proof (MoveCCW_stop m (t, i) _ Vc HL) as X. cbn [fst snd] in X. rewrite X. reflexivity.
  - destruct Hp as (T & Hp).
    destruct (Hv a (or_introl eq_refl)) as (Va & EPa).
    pose proof (MoveCCW_go m (t, i) a (Some itD) Vc Va T) as X. cbn [fst snd] in X. rewrite X; cbn [bind].
    2: { intros E. apply (Hs a); [left; auto|congruence]. }
    2: { apply (Hd (t, i)). left; auto. }
    2: { apply (Hd a). right; left; auto. }
    rewrite lastc_cons in *. rewrite IH; auto.
    + rewrite <- app_assoc. reflexivity.
    + intros x Hx. apply Hs. right; auto.
    + intros x Hx. apply Hv. right; auto.
    + intros x Hx. apply Hd. right; auto.
    + cbn in Hf. lia.
Qed.

Definition setv (t : dtri) (i : nat) (w : nat) : dtri :=
  match i with
  | 0 => mkT w (tv1 t) (tv2 t) (ts0 t) (ts1 t) (ts2 t)
  | 1 => mkT (tv0 t) w (tv2 t) (ts0 t) (ts1 t) (ts2 t)
  | _ => mkT (tv0 t) (tv1 t) w (ts0 t) (ts1 t) (ts2 t)
  end.
Lemma set_v_ok : forall m j i w, j < length m -> i < 3 ->
  set_v m j i w = Some (upd m j (setv (nth j m dtri0) i w)).
Proof.
  intros m j i w Hj Hi. unfold set_v. rewrite (vget_nth _ dtri0) by auto. cbn [bind].
  assert (E : sv (nth j m dtri0) i w = Some (setv (nth j m dtri0) i w)) by (c3 i; reflexivity).
  rewrite E. cbn [bind]. apply vset_upd. auto.
Qed.
Lemma vtx_setv : forall t i w c, i < 3 -> c < 3 -> vtx (setv t i w) c = if Nat.eq_dec i c then w else vtx t c.
Proof. intros t i w c Hi Hc. c3 i; c3 c; reflexivity. Qed.
Lemma lnk_setv : forall t i w c, lnk (setv t i w) c = lnk t c.
Proof. intros. destruct i as [|[|i]], c as [|[|c]]; reflexivity. Qed.

Definition cdec : forall a b : nat * nat, {a = b} + {a <> b}.
Proof. decide equality; apply Nat.eq_dec. Defined.

Lemma rename_ok : forall z x l m, (forall c, In c l -> vc m c /\ P m c = z) -> NoDup l ->
  wp (coll_rename z x l m) (fun f => length f = length m /\
    (forall t i, t < length m -> i < 3 -> V f t i = if in_dec cdec (t, i) l then x else V m t i) /\
    (forall t i, t < length m -> L f t i = L m t i)).
Proof.
  intros z x. unfold coll_rename. induction l as [|(a, b) l IH]; intros m Hl Hd; cbn [foldM].
  - apply wp_some. auto.
  - destruct (Hl (a, b) (or_introl eq_refl)) as ((Ha & Hb) & EP). cbn [fst snd] in *. unfold P in EP. cbn [fst snd] in EP.
    rewrite get_v_ok by auto. cbn [bind]. rewrite EP, Nat.eqb_refl. cbn [assertb bind]. rewrite set_v_ok by auto. cbn [bind].
    inversion Hd as [|? ? N1 N2]; subst.
    assert (HV1 : forall t i, t < length m -> i < 3 -> V (upd m a (setv (nth a m dtri0) b x)) t i = if cdec (a, b) (t, i) then x else V m t i).
    { intros t i Ht Hi. rewrite V_upd by auto. destruct Nat.eq_dec as [<-|E].
      - rewrite vtx_setv by auto. destruct Nat.eq_dec as [<-|E'].
        + destruct cdec; [auto|congruence].
        + destruct cdec as [X|]; [inversion X; lia|auto].
      - destruct cdec as [X|]; [inversion X; lia|auto]. }
    eapply wp_mono; [apply IH|].
    + intros c Hc. destruct (Hl c (or_intror Hc)) as ((H1 & H2) & H3). unfold vc. lens. split; [auto|].
      unfold P. rewrite HV1 by auto. destruct cdec as [X|]; [|exact H3]. destruct c as (c1, c2). cbn in X. inversion X; subst. tauto.
    + auto.
    + cbn beta. intros f (F1 & F2 & F3). rewrite upd_length in F1, F2, F3. split; [auto|]. split.
      * intros t i Ht Hi. rewrite F2, HV1 by auto. destruct (in_dec cdec (t, i) l) as [I|I].
        -- destruct (in_dec cdec (t, i) ((a, b) :: l)) as [J|J]; [auto|]. exfalso. apply J. right; auto.
        -- destruct cdec as [X|X].
           ++ rewrite X. destruct (in_dec cdec (t, i) ((t, i) :: l)) as [J|J]; [auto|]. exfalso. apply J. left; auto.
           ++ destruct (in_dec cdec (t, i) ((a, b) :: l)) as [[J|J]|J]; [tauto|tauto|auto].
      * intros t i Ht. rewrite F3 by auto. rewrite L_upd by auto. destruct Nat.eq_dec as [<-|]; [apply lnk_setv|auto].
Qed.

Lemma set_s2_wp : forall m j i w, j < length m -> i < 3 -> wp (set_s2 m j i w) (fun f => length f = length m /\
  (forall t c, V f t c = V m t c) /\ (forall t c, c < 3 -> L f t c = if cdec (j, i) (t, c) then w else L m t c)).
Proof.
  intros m j i w Hj Hi. rewrite set_s2_ok by auto. apply wp_some. split; [lens; auto|]. split.
  - intros t c. rewrite V_upd by auto. destruct Nat.eq_dec; [subst; apply vtx_setl|auto].
  - intros t c Hc. rewrite L_upd by auto. destruct Nat.eq_dec as [<-|E].
    + rewrite lnk_setl by auto. destruct Nat.eq_dec as [<-|E'].
      * destruct cdec; [auto|congruence].
      * destruct cdec as [X|]; [inversion X; lia|auto].
    + destruct cdec as [X|]; [inversion X; lia|auto].
Qed.

Lemma glue_wp : forall m a ai b bi, a < length m -> b < length m -> ai < 3 -> bi < 3 ->
  wp (coll_glue a ai (Some b) b bi m) (fun f => length f = length m /\
  (forall t c, V f t c = V m t c) /\
  (forall t c, c < 3 -> L f t c = if cdec (b, bi) (t, c) then Some a else if cdec (a, ai) (t, c) then Some b else L m t c)).
Proof.
  intros m a ai b bi Ha Hb Hai Hbi. unfold coll_glue. apply wp_bind. eapply wp_mono; [apply set_s2_wp; auto|].
  cbn beta. intros f1 (F1 & F2 & F3). apply wp_bind, wp_assertb; [apply Nat.ltb_lt; lia|].
  eapply wp_mono; [apply set_s2_wp; [lia|auto]|]. cbn beta. intros f (G1 & G2 & G3). split; [congruence|]. split.
  - intros. rewrite G2, F2. auto.
  - intros t c Hc. rewrite G3, F3 by auto. destruct cdec; auto.
Qed.

Lemma isolate_wp : forall m a, a < length m -> wp (coll_isolate a m) (fun f => length f = length m /\
  (forall t c, V f t c = V m t c) /\ (forall t c, c < 3 -> L f t c = if Nat.eq_dec a t then None else L m t c)).
Proof.
  intros m a Ha. unfold coll_isolate.
  apply wp_bind. eapply wp_mono; [apply set_s2_wp; [auto|lia]|]. cbn beta. intros f1 (F1 & F2 & F3).
  apply wp_bind. eapply wp_mono; [apply set_s2_wp; [lia|lia]|]. cbn beta. intros f2 (G1 & G2 & G3).
  eapply wp_mono; [apply set_s2_wp; [lia|lia]|]. cbn beta. intros f3 (K1 & K2 & K3).
  split; [congruence|]. split.
  - intros. rewrite K2, G2, F2. auto.
  - intros t c Hc. rewrite K3, G3, F3 by auto. destruct Nat.eq_dec as [<-|E].
    + c3 c; repeat destruct cdec; try congruence.
    + repeat (destruct cdec as [X|_]; [inversion X; lia|]). auto.
Qed.
