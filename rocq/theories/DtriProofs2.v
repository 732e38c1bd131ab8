From Coq Require Import List Arith Lia Bool.
Import ListNotations.
From Verif Require Import Imp DtriModel DtriSpec DtriProofs1.

Lemma V_app : forall m x t c, t < length m -> V (m ++ x) t c = V m t c.
Proof. intros. unfold V. rewrite app_nth1 by auto. auto. Qed.
Lemma L_app : forall m x t c, t < length m -> L (m ++ x) t c = L m t c.
Proof. intros. unfold L. rewrite app_nth1 by auto. auto. Qed.

Lemma dtri_eta : forall t u, (forall c, c < 3 -> vtx t c = vtx u c) -> (forall c, c < 3 -> lnk t c = lnk u c) -> t = u.
Proof.
  intros [a b c d e f] [a' b' c' d' e' f'] H1 H2.
  pose proof (H1 0 ltac:(lia)). pose proof (H1 1 ltac:(lia)). pose proof (H1 2 ltac:(lia)).
  pose proof (H2 0 ltac:(lia)). pose proof (H2 1 ltac:(lia)). pose proof (H2 2 ltac:(lia)).
  simpl in *. congruence.
Qed.

Lemma not_twin_self : forall m r i c, tri_ok m -> r < length m -> i < 3 -> ~ twin m r i r c.
Proof. intros m r i c H Hr Hi (_ & _ & E & _). apply (no_self m r i H Hr Hi E). Qed.
Lemma not_twin_new : forall m r i t c, tri_ok m -> r < length m -> i < 3 -> length m <= t -> ~ twin m r i t c.
Proof. intros m r i t c H Hr Hi Ht (_ & _ & E & _). apply (L_lt m r i t H Hr Hi) in E. lia. Qed.

Lemma onat_eqP : forall a b, reflect (a = b) (onat_eq a b).
Proof.
  intros [a|] [b|]; simpl; try (constructor; congruence). destruct (Nat.eqb_spec a b); constructor; congruence.
Qed.

Lemma dist3 : forall X (g : nat -> X), g 0 <> g 1 -> g 0 <> g 2 -> g 1 <> g 2 ->
  forall i j, i < 3 -> j < 3 -> g i = g j -> i = j.
Proof. intros X g H1 H2 H3 i j Hi Hj. c3 i; c3 j; auto; intro E; exfalso; congruence. Qed.
Lemma dist3o : forall (g : nat -> option nat), (g 0 = g 1 -> g 0 = None) -> (g 0 = g 2 -> g 0 = None) -> (g 1 = g 2 -> g 1 = None) ->
  forall i j, i < 3 -> j < 3 -> g i = g j -> g i <> None -> i = j.
Proof.
  intros g H1 H2 H3 i j Hi Hj. c3 i; c3 j; auto; intros E N; exfalso; apply N; auto.
  all: rewrite E; auto.
Qed.

Ltac neq := let X := fresh in intro X; first [lia|congruence].

Section InsElem.
Variables (po : list dpnt) (m : list dtri) (p A : nat).
Hypothesis HC : consistent po m.
Hypothesis HA : A < length m.
Hypothesis Hp : p < length po.
Hypothesis Hfresh : forall i, i < 3 -> V m A i <> p.
Let n := length m.
Let v i := V m A i.
Let l i := L m A i.
Let TA := mkT p (v 1) (v 2) (l 0) (Some n) (Some (n + 1)).
Let TB := mkT p (v 2) (v 0) (l 1) (Some (n + 1)) (Some A).
Let TC := mkT p (v 0) (v 1) (l 2) (Some A) (Some n).
Let own (r k : nat) : nat := match k with 0 => A | 1 => n | _ => n + 1 end.

Lemma InsertPoint_Elem_lem :
  wp (InsertPoint_Elem p A po m) (fun s => let '(po', f) := s in
    consistent po' f /\ length po' = length po /\ length f = n + 2 /\
    nth A f dtri0 = TA /\ nth n f dtri0 = TB /\ nth (n + 1) f dtri0 = TC /\
    (forall t i, t < n -> t <> A -> V f t i = V m t i) /\
    (forall t i, t < n -> t <> A -> i < 3 -> (L f t i = None <-> L m t i = None)) /\
    (forall q, q < length po -> pe (nth q po (mkP None 0)) <> None -> pe (nth q po' (mkP None 0)) <> None) /\
    pe (nth p po' (mkP None 0)) <> None).
Proof.
  destruct HC as (Ht & Hv & Hpe).
  assert (V0 : v 0 < length po) by (apply Hv; auto). assert (V1 : v 1 < length po) by (apply Hv; auto).
  assert (V2 : v 2 < length po) by (apply Hv; auto).
  assert (F0 := Hfresh 0 ltac:(lia)). assert (F1 := Hfresh 1 ltac:(lia)). assert (F2 := Hfresh 2 ltac:(lia)).
  fold (v 0) in F0. fold (v 1) in F1. fold (v 2) in F2.
  destruct (Ht A HA) as (D & DL & _).
  assert (D01 : v 0 <> v 1) by (intro X; apply D in X; lia).
  assert (D02 : v 0 <> v 2) by (intro X; apply D in X; lia).
  assert (D12 : v 1 <> v 2) by (intro X; apply D in X; lia).
  unfold InsertPoint_Elem. apply wp_bind, wp_assertb. { apply Nat.ltb_lt; auto. }
  apply wp_bind, wp_assertb. { apply Nat.ltb_lt; auto. } fold n.
  apply wp_bind. apply (wp_vget _ dtri0). { lens. lia. }
  rewrite app_nth1 by auto.
  change (tv0 (nth A m dtri0)) with (v 0). change (tv1 (nth A m dtri0)) with (v 1). change (tv2 (nth A m dtri0)) with (v 2).
  change (ts0 (nth A m dtri0)) with (l 0). change (ts1 (nth A m dtri0)) with (l 1). change (ts2 (nth A m dtri0)) with (l 2).
  apply wp_bind, wp_vset. { auto. }
  apply wp_bind, wp_vset. { lens; auto. }
  apply wp_bind, wp_vset. { lens; auto. }
  apply wp_bind, wp_vset. { lens; auto. }
  set (po' := upd _ (v 2) _).
  assert (Lpo : length po' = length po) by (unfold po'; lens; auto).
  apply wp_bind, wp_vset. { lens. fold n. lia. } fold TA.
  set (m1 := upd _ A TA). assert (Lm1 : length m1 = n + 2) by (unfold m1; lens; auto).
  assert (V1m : forall t c, t < n -> t <> A -> V m1 t c = V m t c).
  { intros. unfold m1. rewrite V_upd by (lens; fold n; lia). destruct Nat.eq_dec; [lia|]. apply V_app; auto. }
  assert (NA : forall i t, i < 3 -> L m A i = Some t -> t < n /\ t <> A).
  { intros i t Hi E. split. apply (L_lt m A i); auto. intro; subst. apply (no_self m A i); auto. }
  apply wp_bind. eapply wp_mono.
  { apply relink_ok; auto. fold n; lia. intros j c E Hc. destruct (NA 0 j); auto. }
  intros m2 (Lm2 & Vm2 & Lm2a & Lm2b).
  apply wp_bind, wp_vset. { rewrite Lm2. lia. } fold TB.
  set (m3 := upd m2 n TB). assert (Lm3 : length m3 = n + 2) by (unfold m3; lens; lia).
  assert (V3 : forall t c, V m3 t c = if Nat.eq_dec n t then vtx TB c else V m1 t c).
  { intros. unfold m3. rewrite V_upd by lia. rewrite Vm2. auto. }
  assert (L3 : forall t c, L m3 t c = if Nat.eq_dec n t then lnk TB c else L m2 t c).
  { intros. unfold m3. rewrite L_upd by lia. auto. }
  apply wp_bind. eapply wp_mono.
  { apply relink_ok; auto. fold n; lia. intros j c E Hc. destruct (NA 1 j); auto. rewrite V3. destruct Nat.eq_dec; [lia|]. auto. }
  intros m4 (Lm4 & Vm4 & Lm4a & Lm4b).
  apply wp_bind, wp_vset. { rewrite Lm4. lia. } fold TC.
  set (m5 := upd m4 (n + 1) TC). assert (Lm5 : length m5 = n + 2) by (unfold m5; lens; lia).
  assert (V5 : forall t c, V m5 t c = if Nat.eq_dec (n + 1) t then vtx TC c else V m3 t c).
  { intros. unfold m5. rewrite V_upd by lia. rewrite Vm4. auto. }
  assert (L5 : forall t c, L m5 t c = if Nat.eq_dec (n + 1) t then lnk TC c else L m4 t c).
  { intros. unfold m5. rewrite L_upd by lia. auto. }
  apply wp_bind. eapply wp_mono.
  { apply relink_ok; auto. fold n; lia. intros j c E Hc. destruct (NA 2 j); auto.
    rewrite V5, V3. repeat (destruct Nat.eq_dec; [lia|]). auto. }
  intros f (Lf & Vf & Lfa & Lfb). apply wp_some.
  assert (Lenf : length f = n + 2) by lia.
  assert (FA : nth A f dtri0 = TA).
  { apply dtri_eta; intros c Hc.
    - change (V f A c = vtx TA c). rewrite Vf, V5, V3. repeat (destruct Nat.eq_dec; [lia|]).
      unfold m1. rewrite V_upd by (lens; fold n; lia). destruct Nat.eq_dec; [auto|lia].
    - change (L f A c = lnk TA c). rewrite Lfb, L5 by (auto using not_twin_self).
      destruct Nat.eq_dec; [lia|]. rewrite Lm4b, L3 by (auto using not_twin_self). destruct Nat.eq_dec; [lia|].
      rewrite Lm2b by (auto using not_twin_self). unfold m1. rewrite L_upd by (lens; fold n; lia).
      destruct Nat.eq_dec; [auto|lia]. }
  assert (FB : nth n f dtri0 = TB).
  { apply dtri_eta; intros c Hc.
    - change (V f n c = vtx TB c). rewrite Vf, V5, V3. destruct Nat.eq_dec; [lia|]. destruct Nat.eq_dec; [auto|lia].
    - change (L f n c = lnk TB c). rewrite Lfb, L5 by (auto using not_twin_new). destruct Nat.eq_dec; [lia|].
      rewrite Lm4b, L3 by (auto using not_twin_new). destruct Nat.eq_dec; [auto|lia]. }
  assert (FC : nth (n + 1) f dtri0 = TC).
  { apply dtri_eta; intros c Hc.
    - change (V f (n + 1) c = vtx TC c). rewrite Vf, V5. destruct Nat.eq_dec; [auto|lia].
    - change (L f (n + 1) c = lnk TC c). rewrite Lfb, L5 by (auto; apply not_twin_new; auto; fold n; lia).
      destruct Nat.eq_dec; [auto|lia]. }
  assert (FVo : forall t i, t < n -> t <> A -> V f t i = V m t i).
  { intros. rewrite Vf, V5, V3. repeat (destruct Nat.eq_dec; [lia|]). auto. }
  assert (FL1 : forall t c k, t < n -> t <> A -> twin m t c A k -> L f t c = Some (own A k)).
  { intros t c k Htn HtA HT. apply twin_sym in HT. assert (Hc : c < 3) by apply HT. assert (Hk : k < 3) by apply HT.
    assert (U : forall i, i < 3 -> i <> k -> ~ twin m A i t c).
    { intros i Hi Hik HT'. apply Hik. destruct HT as (_ & _ & E1 & _). destruct HT' as (_ & _ & E2 & _).
      apply DL; auto; congruence. }
    c3 k; simpl.
    - rewrite Lfb, L5 by (auto; apply U; lia). destruct Nat.eq_dec; [lia|]. rewrite Lm4b, L3 by (auto; apply U; lia).
      destruct Nat.eq_dec; [lia|]. auto.
    - rewrite Lfb, L5 by (auto; apply U; lia). destruct Nat.eq_dec; [lia|]. auto.
    - auto. }
  assert (FL2 : forall t c, t < n -> t <> A -> c < 3 -> L m t c <> Some A -> L f t c = L m t c).
  { intros t c Htn HtA Hc Hno.
    assert (U : forall i, ~ twin m A i t c) by (intros i (_ & _ & _ & E & _); auto).
    rewrite Lfb, L5 by auto. destruct Nat.eq_dec; [lia|]. rewrite Lm4b, L3 by auto. destruct Nat.eq_dec; [lia|].
    rewrite Lm2b by auto. unfold m1. rewrite L_upd by (lens; fold n; lia). destruct Nat.eq_dec; [lia|].
    apply L_app; auto. }
  assert (FAv : forall c, V f A c = vtx TA c) by (intro; unfold V; rewrite FA; auto).
  assert (FBv : forall c, V f n c = vtx TB c) by (intro; unfold V; rewrite FB; auto).
  assert (FCv : forall c, V f (n+1) c = vtx TC c) by (intro; unfold V; rewrite FC; auto).
  assert (FAl : forall c, L f A c = lnk TA c) by (intro; unfold L; rewrite FA; auto).
  assert (FBl : forall c, L f n c = lnk TB c) by (intro; unfold L; rewrite FB; auto).
  assert (FCl : forall c, L f (n+1) c = lnk TC c) by (intro; unfold L; rewrite FC; auto).
  assert (LN : forall i x, i < 3 -> n <= x -> l i <> Some x).
  { intros i x Hi Hx X. destruct (NA i x Hi X). lia. }
  assert (LS : forall i, i < 3 -> l i <> Some A).
  { intros i Hi X. destruct (NA i A Hi X). lia. }
  assert (OK : tri_ok f).
  { apply (retri_ok m f (fun r => r = A) own); auto.
    - lia.
    - intros r ->. auto.
    - intro t. apply Nat.eq_dec.
    - intros t c r k Htn HtA ->. apply FL1; auto.
    - intros x [->|Hx].
      + split.
        * apply dist3; rewrite !FAv; unfold TA, v in *; simpl; congruence.
        * apply dist3o; rewrite !FAl; simpl; intro E; exfalso.
          apply (LN 0 n); auto. apply (LN 0 (n + 1)); auto; lia. assert (n = n + 1) by congruence. lia.
      + assert (x = n \/ x = n + 1) as [->| ->] by (fold n in Hx; lia).
        * split. apply dist3; rewrite !FBv; unfold TB, v in *; simpl; congruence.
          apply dist3o; rewrite !FBl; simpl; intro E; exfalso.
          apply (LN 1 (n+1)); auto; lia. apply (LS 1); auto. assert (A = n + 1) by congruence. fold n in HA. lia.
        * split. apply dist3; rewrite !FCv; unfold TC, v in *; simpl; congruence.
          apply dist3o; rewrite !FCl; simpl; intro E; exfalso.
          apply (LS 2); auto. apply (LN 2 n); auto; lia. assert (A = n) by congruence. fold n in HA. lia.
    - intros x k Hx Hk. assert (x = A \/ x = n \/ x = n + 1) as [->|[->| ->]] by (fold n in Hx; lia); c3 k.
      + right. exists A, 0. rewrite FAl, !FAv. repeat (split; auto). intros r' ->; apply LS; auto.
      + left. exists n, 2. split; [lia|]. unfold twin. rewrite FAl, FBl, !FAv, !FBv. repeat split; auto.
      + left. exists (n+1), 1. split; [lia|]. unfold twin. rewrite FAl, FCl, !FAv, !FCv. repeat split; auto.
      + right. exists A, 1. rewrite FBl, !FBv. repeat (split; auto). intros r' ->; apply LS; auto.
      + left. exists (n+1), 2. split; [lia|]. unfold twin. rewrite FBl, FCl, !FBv, !FCv. repeat split; auto.
      + left. exists A, 1. split; [lia|]. unfold twin. rewrite FBl, FAl, !FBv, !FAv. repeat split; auto.
      + right. exists A, 2. rewrite FCl, !FCv. repeat (split; auto). intros r' ->; apply LS; auto.
      + left. exists A, 2. split; [lia|]. unfold twin. rewrite FCl, FAl, !FCv, !FAv. repeat split; auto.
      + left. exists n, 1. split; [lia|]. unfold twin. rewrite FCl, FBl, !FCv, !FBv. repeat split; auto.
    - intros r i t -> Hi E HtA. c3 i; simpl; fold n.
      + split; [lia|]. split; [auto|]. exists 0. rewrite FAl, !FAv. repeat split; auto.
      + split; [lia|]. split; [lia|]. exists 0. rewrite FBl, !FBv. repeat split; auto.
      + split; [lia|]. split; [lia|]. exists 0. rewrite FCl, !FCv. repeat split; auto.
    - intros r i r' i' t -> -> Hi Hi' _ E1 E2 E. split; auto. c3 i; c3 i'; simpl in E; auto; lia. }
  assert (PO : forall q, q < length po -> nth q po' (mkP None 0) =
     if Nat.eq_dec (v 2) q then mkP (Some A) 2 else if Nat.eq_dec (v 1) q then mkP (Some (n + 1)) 2 else
     if Nat.eq_dec (v 0) q then mkP (Some n) 2 else if Nat.eq_dec p q then mkP (Some A) 0 else nth q po (mkP None 0)).
  { intros q Hq. unfold po'. rewrite !nth_upd by (lens; auto). auto. }
  split; [split; [exact OK|split]|].
  - rewrite Lpo. intros t i Htf Hi.
    destruct (Nat.eq_dec t A) as [->|]; [rewrite FAv; unfold TA; c3 i; simpl; auto|].
    destruct (Nat.eq_dec t n) as [->|]; [rewrite FBv; unfold TB; c3 i; simpl; auto|].
    destruct (Nat.eq_dec t (n+1)) as [->|]; [rewrite FCv; unfold TC; c3 i; simpl; auto|].
    rewrite FVo by lia. apply Hv; auto. fold n; lia.
  - rewrite Lpo. intros q t Hq. rewrite PO by auto.
    repeat (destruct Nat.eq_dec; [intro E; inversion E; subst t; simpl; rewrite ?FAv, ?FBv, ?FCv; repeat split; auto; lia|]).
    intro E. destruct (Hpe q t Hq E) as (H1 & H2 & H3).
    assert (t <> A).
    { intros ->. revert H2 H3. fold n. set (d := pd _). intros H2 H3. c3 d; unfold v in *; lia. }
    split; [fold n in H1; lia|]. split; auto. rewrite FVo by auto. auto.
  - do 6 (split; [solve [auto]|]). split.
    + intros t i Htn HtA Hi. destruct (onat_eqP (L m t i) (Some A)) as [E|E].
      * destruct (L_twin m t i A) as (k & HT); auto. rewrite (FL1 t i k), E by auto. split; intros; discriminate.
      * rewrite FL2 by auto. tauto.
    + split. intros q Hq. rewrite PO by auto. repeat (destruct Nat.eq_dec; [simpl; congruence|]). auto.
      rewrite PO by auto. repeat (destruct Nat.eq_dec; [simpl; congruence|]). congruence.
Qed.
End InsElem.
