From Coq Require Import List Arith Lia Bool.
Import ListNotations.
From Verif Require Import Imp DtriModel DtriSpec DtriProofs1 DtriProofs2.

Lemma nxnx : forall i, nx (nx i) = pv i.
Proof.
  intros. unfold nx, pv. rewrite Nat.add_mod_idemp_l by lia. f_equal. lia.
Qed.
Lemma nxpv : forall i, i < 3 -> nx (pv i) = i. Proof. intros i Hi. c3 i; reflexivity. Qed.
Lemma pvnx : forall i, i < 3 -> pv (nx i) = i. Proof. intros i Hi. c3 i; reflexivity. Qed.
Lemma pvpv : forall i, i < 3 -> pv (pv i) = nx i. Proof. intros i Hi. c3 i; reflexivity. Qed.
Lemma nx_neq : forall i, i < 3 -> nx i <> i. Proof. intros i Hi. c3 i; cbv; lia. Qed.
Lemma pv_neq : forall i, i < 3 -> pv i <> i. Proof. intros i Hi. c3 i; cbv; lia. Qed.
Lemma nxpv_neq : forall i, i < 3 -> nx i <> pv i. Proof. intros i Hi. c3 i; cbv; lia. Qed.
Lemma tri_cases : forall i e, i < 3 -> e < 3 -> i = e \/ i = nx e \/ i = pv e.
Proof. intros i e Hi He. c3 i; c3 e; cbv; auto. Qed.

(** hides disequalities from [lia] *)
Definition ne (a b : nat) : Prop := a <> b.

Section TwoTri.
Variables (po : list dpnt) (m : list dtri) (A e B k : nat).
Hypothesis HC : consistent po m.
Hypothesis HA : A < length m.
Hypothesis HT : twin m A e B k.

Lemma tt_e : e < 3. Proof. apply HT. Qed.
Lemma tt_k : k < 3. Proof. apply HT. Qed.
Lemma tt_ok : tri_ok m. Proof. apply HC. Qed.
Lemma tt_LA : L m A e = Some B. Proof. apply HT. Qed.
Lemma tt_LB : L m B k = Some A. Proof. apply HT. Qed.
Lemma tt_B : B < length m. Proof. apply (L_lt m A e B tt_ok HA tt_e tt_LA). Qed.
Lemma tt_AB : A <> B.
Proof. intro E. apply (no_self m A e tt_ok HA tt_e). rewrite tt_LA. congruence. Qed.
Lemma tt_a1 : V m A (nx e) = V m B (pv k). Proof. apply HT. Qed.
Lemma tt_a2 : V m A (pv e) = V m B (nx k). Proof. apply HT. Qed.

(** neighbours over the four outer edges are neither A nor B *)
Lemma tt_outA : forall i t, i < 3 -> i <> e -> L m A i = Some t -> t < length m /\ t <> A /\ t <> B.
Proof.
  intros i t Hi Hie E. pose proof tt_ok as Ht. split. apply (L_lt m A i); auto. split.
  - intros ->. apply (no_self m A i); auto.
  - intros ->. apply Hie. destruct (Ht A HA) as (_ & DL & _). apply DL; auto. apply tt_e. rewrite tt_LA. auto.
    rewrite E. discriminate.
Qed.
Lemma tt_outB : forall i t, i < 3 -> i <> k -> L m B i = Some t -> t < length m /\ t <> A /\ t <> B.
Proof.
  intros i t Hi Hie E. pose proof tt_ok as Ht. pose proof tt_B as HB. split. apply (L_lt m B i); auto. split.
  - intros ->. apply Hie. destruct (Ht B HB) as (_ & DL & _). apply DL; auto. apply tt_k. rewrite tt_LB. auto.
    rewrite E. discriminate.
  - intros ->. apply (no_self m B i); auto.
Qed.
Lemma tt_noA : forall i x c, i < 3 -> i <> e -> x = A \/ x = B \/ length m <= x -> ~ twin m A i x c.
Proof. intros i x c Hi Hie Hx (_ & _ & E & _). destruct (tt_outA i x Hi Hie E). lia. Qed.
Lemma tt_noB : forall i x c, i < 3 -> i <> k -> x = A \/ x = B \/ length m <= x -> ~ twin m B i x c.
Proof. intros i x c Hi Hie Hx (_ & _ & E & _). destruct (tt_outB i x Hi Hie E). lia. Qed.

Let R r := r = A \/ r = B.
Lemma tt_outer : forall r i t, R r -> i < 3 -> L m r i = Some t -> ~ R t ->
  (r = A /\ i = nx e) \/ (r = A /\ i = pv e) \/ (r = B /\ i = nx k) \/ (r = B /\ i = pv k).
Proof.
  intros r i t [->| ->] Hi E Hn.
  - destruct (tri_cases i e Hi tt_e) as [->|[->| ->]]; auto. exfalso. apply Hn. rewrite tt_LA in E. inversion E. right; auto.
  - destruct (tri_cases i k Hi tt_k) as [->|[->| ->]]; auto. exfalso. apply Hn. rewrite tt_LB in E. inversion E. left; auto.
Qed.

Lemma tt_other : forall t c r i r' i', t < length m -> twin m t c r i -> (r, i) <> (r', i') -> ~ twin m r' i' t c.
Proof.
  intros t c r i r' i' Htm HT1 Hne HT2. apply twin_sym in HT2. apply Hne.
  destruct (twin_fun m t c r i r' i' tt_ok Htm HT1 HT2). congruence.
Qed.

Lemma tt_dA : forall i j, i < 3 -> j < 3 -> i <> j -> V m A i <> V m A j.
Proof. intros i j Hi Hj Hij E. apply Hij. destruct (tt_ok A HA) as (D & _). apply D; auto. Qed.
Lemma tt_dB : forall i j, i < 3 -> j < 3 -> i <> j -> V m B i <> V m B j.
Proof. intros i j Hi Hj Hij E. apply Hij. destruct (tt_ok B tt_B) as (D & _). apply D; auto. Qed.
Lemma tt_vA : forall i, i < 3 -> V m A i < length po.
Proof. intros. apply HC; auto. Qed.
Lemma tt_vB : forall i, i < 3 -> V m B i < length po.
Proof. intros. apply HC; auto. apply tt_B. Qed.
Lemma tt_FindAdj : FindAdjEdgeIndex (nth A m dtri0) e m = Some k.
Proof. apply (FindAdj_ok m m A e B k); auto. apply tt_ok. apply tt_B. Qed.

Section Ins.
Variable p : nat.
Hypothesis Hp : p < length po.
Hypothesis HfA : forall i, i < 3 -> V m A i <> p.
Hypothesis HfB : forall i, i < 3 -> V m B i <> p.

Let n := length m.
Let T0 := mkT p (V m A (pv e)) (V m A e) (L m A (nx e)) (Some B) (Some (n + 1)).
Let T1 := mkT p (V m A e) (V m A (nx e)) (L m A (pv e)) (Some n) (Some A).
Let T2 := mkT p (V m B (pv k)) (V m B k) (L m B (nx k)) (Some (n + 1)) (Some B).
Let T3 := mkT p (V m B k) (V m B (nx k)) (L m B (pv k)) (Some A) (Some n).
Let own (r i : nat) : nat :=
  if Nat.eq_dec r A then (if Nat.eq_dec i (nx e) then A else B) else (if Nat.eq_dec i (nx k) then n else n + 1).

Lemma InsertPoint_ElemEdge_lem :
  wp (InsertPoint_ElemEdge p A e po m) (fun s => let '(po', f) := s in
    consistent po' f /\ length po' = length po /\ length f = n + 2 /\
    nth A f dtri0 = T0 /\ nth B f dtri0 = T1 /\ nth n f dtri0 = T2 /\ nth (n + 1) f dtri0 = T3 /\
    (forall t i, t < n -> t <> A -> t <> B -> V f t i = V m t i) /\
    (forall t i, t < n -> t <> A -> t <> B -> i < 3 -> (L f t i = None <-> L m t i = None)) /\
    (forall q, q < length po -> pe (nth q po (mkP None 0)) <> None -> pe (nth q po' (mkP None 0)) <> None) /\
    pe (nth p po' (mkP None 0)) <> None).
Proof.
  pose proof tt_ok as Ht. pose proof tt_B as HB. pose proof tt_AB as HAB. pose proof tt_e as He. pose proof tt_k as Hk.
  fold n in HA, HB.
  pose proof (nx_neq e He) as E1. pose proof (pv_neq e He) as E2. pose proof (nxpv_neq e He) as E3.
  pose proof (nx_neq k Hk) as E4. pose proof (pv_neq k Hk) as E5. pose proof (nxpv_neq k Hk) as E6.
  assert (LA : forall i x, i < 3 -> i <> e -> x = A \/ x = B \/ n <= x -> L m A i <> Some x).
  { intros i x Hi Hie Hx E. destruct (tt_outA i x Hi Hie E) as (Y1 & Y2 & Y3). fold n in Y1. lia. }
  assert (LB : forall i x, i < 3 -> i <> k -> x = A \/ x = B \/ n <= x -> L m B i <> Some x).
  { intros i x Hi Hie Hx E. destruct (tt_outB i x Hi Hie E) as (Y1 & Y2 & Y3). fold n in Y1. lia. }
  destruct HC as (_ & Hv & Hpe).
  unfold InsertPoint_ElemEdge. apply wp_bind, wp_assertb. { apply Nat.ltb_lt; auto. }
  apply wp_bind, wp_assertb. { apply Nat.ltb_lt; auto. } fold n.
  apply wp_bind. apply (wp_vget _ dtri0). { auto. }
  rewrite gs_lnk by auto. cbn [bind]. change (lnk (nth A m dtri0) e) with (L m A e). rewrite tt_LA. cbn [bind].
  rewrite tt_FindAdj. cbn [bind]. apply wp_bind, wp_assertb. { apply Nat.ltb_lt; auto. }
  apply wp_bind. apply (wp_vget _ dtri0). { lens. fold n. lia. } rewrite app_nth1 by auto.
  apply wp_bind. apply (wp_vget _ dtri0). { lens. fold n. lia. } rewrite app_nth1 by auto.
  change ((e + 1) mod 3) with (nx e). change ((e + 2) mod 3) with (pv e).
  change ((k + 1) mod 3) with (nx k). change ((k + 2) mod 3) with (pv k).
  rewrite !gv_vtx, !gs_lnk by auto. cbn [bind].
  repeat change (vtx (nth A m dtri0)) with (V m A). repeat change (vtx (nth B m dtri0)) with (V m B).
  repeat change (lnk (nth A m dtri0)) with (L m A). repeat change (lnk (nth B m dtri0)) with (L m B).
  apply wp_bind, wp_assertb. { apply Nat.eqb_eq. apply tt_a1. }
  apply wp_bind, wp_assertb. { apply Nat.eqb_eq. apply tt_a2. }
  apply wp_bind, wp_assertb. { destruct (onat_eqP (L m A e) (Some B)) as [|X]; auto. exfalso. apply X, tt_LA. }
  apply wp_bind, wp_assertb. { destruct (onat_eqP (L m B k) (Some A)) as [|X]; auto. exfalso. apply X, tt_LB. }
  pose proof (tt_vA _ He) as VA0. pose proof (tt_vA _ (nx_lt e)) as VA1. pose proof (tt_vA _ (pv_lt e)) as VA2.
  pose proof (tt_vB _ Hk) as VB0. pose proof (tt_vB _ (nx_lt k)) as VB1. pose proof (tt_vB _ (pv_lt k)) as VB2.
  apply wp_bind, wp_vset. { auto. }
  apply wp_bind, wp_vset. { lens; auto. }
  apply wp_bind, wp_vset. { lens; auto. }
  apply wp_bind, wp_vset. { lens; auto. }
  apply wp_bind, wp_vset. { lens; auto. }
  set (po' := upd _ (V m B k) _).
  assert (Lpo : length po' = length po) by (unfold po'; lens; auto).
  apply wp_bind, wp_vset. { lens. fold n. lia. } fold T0.
  set (m1 := upd _ A T0). assert (Lm1 : length m1 = n + 2) by (unfold m1; lens; auto).
  assert (V1 : forall t c, V m1 t c = if Nat.eq_dec A t then vtx T0 c else V (m ++ [dtri0; dtri0]) t c).
  { intros. unfold m1. rewrite V_upd by (lens; fold n; lia). auto. }
  assert (L1 : forall t c, L m1 t c = if Nat.eq_dec A t then lnk T0 c else L (m ++ [dtri0; dtri0]) t c).
  { intros. unfold m1. rewrite L_upd by (lens; fold n; lia). auto. }
  clearbody m1.
  apply wp_bind. eapply wp_mono.
  { apply relink_ok; auto. fold n; lia. intros j c E Hc. destruct (tt_outA (nx e) j) as (X1 & X2 & X3); auto.
    rewrite V1. destruct Nat.eq_dec; [lia|]. apply V_app; auto. }
  intros m2 (Lm2 & Vm2 & Lm2a & Lm2b).
  apply wp_bind, wp_vset. { rewrite Lm2. lia. } fold T1.
  set (m3 := upd m2 B T1). assert (Lm3 : length m3 = n + 2) by (unfold m3; lens; lia).
  assert (V3 : forall t c, V m3 t c = if Nat.eq_dec B t then vtx T1 c else V m1 t c).
  { intros. unfold m3. rewrite V_upd by lia. rewrite Vm2. auto. }
  assert (L3 : forall t c, L m3 t c = if Nat.eq_dec B t then lnk T1 c else L m2 t c).
  { intros. unfold m3. rewrite L_upd by lia. auto. }
  clearbody m3.
  apply wp_bind. eapply wp_mono.
  { apply relink_ok; auto. fold n; lia. intros j c E Hc. destruct (tt_outA (pv e) j) as (X1 & X2 & X3); auto.
    rewrite V3, V1. do 2 (destruct Nat.eq_dec; [lia|]). apply V_app; auto. }
  intros m4 (Lm4 & Vm4 & Lm4a & Lm4b).
  apply wp_bind, wp_vset. { rewrite Lm4. lia. } fold T2.
  set (m5 := upd m4 n T2). assert (Lm5 : length m5 = n + 2) by (unfold m5; lens; lia).
  assert (V5 : forall t c, V m5 t c = if Nat.eq_dec n t then vtx T2 c else V m3 t c).
  { intros. unfold m5. rewrite V_upd by lia. rewrite Vm4. auto. }
  assert (L5 : forall t c, L m5 t c = if Nat.eq_dec n t then lnk T2 c else L m4 t c).
  { intros. unfold m5. rewrite L_upd by lia. auto. }
  clearbody m5.
  apply wp_bind. eapply wp_mono.
  { apply relink_ok; auto. fold n; lia. intros j c E Hc. destruct (tt_outB (nx k) j) as (X1 & X2 & X3); auto.
    fold n in X1. rewrite V5, V3, V1. do 3 (destruct Nat.eq_dec; [lia|]). apply V_app; auto. }
  intros m6 (Lm6 & Vm6 & Lm6a & Lm6b).
  apply wp_bind, wp_vset. { rewrite Lm6. lia. } fold T3.
  set (m7 := upd m6 (n + 1) T3). assert (Lm7 : length m7 = n + 2) by (unfold m7; lens; lia).
  assert (V7 : forall t c, V m7 t c = if Nat.eq_dec (n + 1) t then vtx T3 c else V m5 t c).
  { intros. unfold m7. rewrite V_upd by lia. rewrite Vm6. auto. }
  assert (L7 : forall t c, L m7 t c = if Nat.eq_dec (n + 1) t then lnk T3 c else L m6 t c).
  { intros. unfold m7. rewrite L_upd by lia. auto. }
  clearbody m7.
  apply wp_bind. eapply wp_mono.
  { apply relink_ok; auto. fold n; lia. intros j c E Hc. destruct (tt_outB (pv k) j) as (X1 & X2 & X3); auto.
    fold n in X1. rewrite V7, V5, V3, V1. do 4 (destruct Nat.eq_dec; [lia|]). apply V_app; auto. }
  intros f (Lf & Vf & Lfa & Lfb). apply wp_some.
  assert (Lenf : length f = n + 2) by lia.
  assert (Fv : forall t c, V f t c = if Nat.eq_dec (n + 1) t then vtx T3 c else if Nat.eq_dec n t then vtx T2 c else
     if Nat.eq_dec B t then vtx T1 c else if Nat.eq_dec A t then vtx T0 c else V (m ++ [dtri0; dtri0]) t c).
  { intros. rewrite Vf, V7, V5, V3, V1. auto. }
  assert (Fl : forall t c, t = A \/ t = B \/ n <= t -> c < 3 ->
     L f t c = if Nat.eq_dec (n + 1) t then lnk T3 c else if Nat.eq_dec n t then lnk T2 c else
     if Nat.eq_dec B t then lnk T1 c else if Nat.eq_dec A t then lnk T0 c else L (m ++ [dtri0; dtri0]) t c).
  { intros t c Hx Hc. rewrite Lfb, L7 by (auto; apply tt_noB; auto). destruct Nat.eq_dec; auto.
    rewrite Lm6b, L5 by (auto; apply tt_noB; auto). destruct Nat.eq_dec; auto.
    rewrite Lm4b, L3 by (auto; apply tt_noA; auto). destruct Nat.eq_dec; auto.
    rewrite Lm2b, L1 by (auto; apply tt_noA; auto). auto. }
  assert (FAv : forall c, V f A c = vtx T0 c).
  { intros. rewrite Fv. do 3 (destruct Nat.eq_dec; [lia|]). destruct Nat.eq_dec; [auto|lia]. }
  assert (FBv : forall c, V f B c = vtx T1 c).
  { intros. rewrite Fv. do 2 (destruct Nat.eq_dec; [lia|]). destruct Nat.eq_dec; [auto|lia]. }
  assert (FCv : forall c, V f n c = vtx T2 c).
  { intros. rewrite Fv. do 1 (destruct Nat.eq_dec; [lia|]). destruct Nat.eq_dec; [auto|lia]. }
  assert (FDv : forall c, V f (n + 1) c = vtx T3 c).
  { intros. rewrite Fv. destruct Nat.eq_dec; [auto|lia]. }
  assert (FAl : forall c, c < 3 -> L f A c = lnk T0 c).
  { intros. rewrite Fl by auto. do 3 (destruct Nat.eq_dec; [lia|]). destruct Nat.eq_dec; [auto|lia]. }
  assert (FBl : forall c, c < 3 -> L f B c = lnk T1 c).
  { intros. rewrite Fl by auto. do 2 (destruct Nat.eq_dec; [lia|]). destruct Nat.eq_dec; [auto|lia]. }
  assert (FCl : forall c, c < 3 -> L f n c = lnk T2 c).
  { intros. rewrite Fl by auto. do 1 (destruct Nat.eq_dec; [lia|]). destruct Nat.eq_dec; [auto|lia]. }
  assert (FDl : forall c, c < 3 -> L f (n + 1) c = lnk T3 c).
  { intros. rewrite Fl by (auto; lia). destruct Nat.eq_dec; [auto|lia]. }
  assert (FVo : forall t i, t < n -> t <> A -> t <> B -> V f t i = V m t i).
  { intros. rewrite Fv. do 4 (destruct Nat.eq_dec; [lia|]). apply V_app; auto. }
  assert (FL1 : forall t c r i, t < n -> t <> A -> t <> B -> R r -> twin m t c r i -> L f t c = Some (own r i)).
  { intros t c r i Htn HtA HtB HRr HTt. pose proof (twin_sym _ _ _ _ _ HTt) as HTs.
    assert (Hc : c < 3) by apply HTt. assert (Hi : i < 3) by apply HTs.
    assert (U : forall r' i', (r, i) <> (r', i') -> ~ twin m r' i' t c) by (intros; eapply tt_other; eauto).
    assert (NR : ~ R t) by (unfold R; lia).
    destruct (tt_outer r i t HRr Hi) as [(-> & ->)|[(-> & ->)|[(-> & ->)|(-> & ->)]]]; auto; [apply HTs| | | |]; unfold own.
    - do 2 (destruct Nat.eq_dec; [|tauto]).
      rewrite Lfb, L7 by (auto; apply U; congruence). destruct Nat.eq_dec; [lia|].
      rewrite Lm6b, L5 by (auto; apply U; congruence). destruct Nat.eq_dec; [lia|].
      rewrite Lm4b, L3 by (auto; apply U; congruence). destruct Nat.eq_dec; [lia|]. auto.
    - destruct Nat.eq_dec; [|tauto]. destruct Nat.eq_dec; [congruence|].
      rewrite Lfb, L7 by (auto; apply U; congruence). destruct Nat.eq_dec; [lia|].
      rewrite Lm6b, L5 by (auto; apply U; congruence). destruct Nat.eq_dec; [lia|]. auto.
    - destruct Nat.eq_dec; [congruence|]. destruct Nat.eq_dec; [|tauto].
      rewrite Lfb, L7 by (auto; apply U; congruence). destruct Nat.eq_dec; [lia|]. auto.
    - do 2 (destruct Nat.eq_dec; [congruence|]). auto. }
  assert (FL2 : forall t c, t < n -> t <> A -> t <> B -> c < 3 -> L m t c <> Some A -> L m t c <> Some B -> L f t c = L m t c).
  { intros t c Htn HtA HtB Hc Hno1 Hno2.
    assert (UA : forall i, ~ twin m A i t c) by (intros i (_ & _ & _ & E & _); auto).
    assert (UB : forall i, ~ twin m B i t c) by (intros i (_ & _ & _ & E & _); auto).
    rewrite Lfb, L7 by auto. destruct Nat.eq_dec; [lia|]. rewrite Lm6b, L5 by auto. destruct Nat.eq_dec; [lia|].
    rewrite Lm4b, L3 by auto. destruct Nat.eq_dec; [lia|]. rewrite Lm2b, L1 by auto. destruct Nat.eq_dec; [lia|].
    apply L_app; auto. }
  pose proof (HfA _ He) as P0. pose proof (HfA _ (nx_lt e)) as P1. pose proof (HfA _ (pv_lt e)) as P2.
  pose proof (HfB _ Hk) as P3. pose proof (HfB _ (nx_lt k)) as P4. pose proof (HfB _ (pv_lt k)) as P5.
  fold (ne (V m A e) p) in P0. fold (ne (V m A (nx e)) p) in P1. fold (ne (V m A (pv e)) p) in P2.
  fold (ne (V m B k) p) in P3. fold (ne (V m B (nx k)) p) in P4. fold (ne (V m B (pv k)) p) in P5.
  pose proof (tt_dA e (nx e) He (nx_lt e) ltac:(auto)) as Q1. pose proof (tt_dA e (pv e) He (pv_lt e) ltac:(auto)) as Q2.
  pose proof (tt_dB k (nx k) Hk (nx_lt k) ltac:(auto)) as Q3. pose proof (tt_dB k (pv k) Hk (pv_lt k) ltac:(auto)) as Q4.
  fold (ne (V m A e) (V m A (nx e))) in Q1. fold (ne (V m A e) (V m A (pv e))) in Q2.
  fold (ne (V m B k) (V m B (nx k))) in Q3. fold (ne (V m B k) (V m B (pv k))) in Q4.
  pose proof tt_a1 as QA1. pose proof tt_a2 as QA2.
  assert (OK : tri_ok f).
  { apply (retri_ok m f R own); auto.
    - lia.
    - intros r [->| ->]; auto.
    - intro t. unfold R. destruct (Nat.eq_dec t A), (Nat.eq_dec t B); auto. right; lia.
    - intros t c Htn HR' Hc. apply FVo; auto; unfold R in HR'; lia.
    - intros t c r i Htn HR' Hr HTt. apply FL1; auto; unfold R in HR'; lia.
    - intros t c Htn HR' Hc Hno. apply FL2; auto; unfold R in *; auto.
    - intros x Hx. fold n in Hx. assert (x = A \/ x = B \/ x = n \/ x = n + 1) as [->|[->|[->| ->]]] by (unfold R in Hx; lia).
      + split. apply dist3; rewrite !FAv; unfold T0, ne in *; simpl; congruence.
        apply dist3o; rewrite !FAl by lia; unfold T0; simpl; intro E; exfalso.
        apply (LA (nx e) B); auto. apply (LA (nx e) (n + 1)); auto; lia. assert (B = n + 1) by congruence. lia.
      + split. apply dist3; rewrite !FBv; unfold T1, ne in *; simpl; congruence.
        apply dist3o; rewrite !FBl by lia; unfold T1; simpl; intro E; exfalso.
        apply (LA (pv e) n); auto; lia. apply (LA (pv e) A); auto; lia. assert (A = n) by congruence. lia.
      + split. apply dist3; rewrite !FCv; unfold T2, ne in *; simpl; congruence.
        apply dist3o; rewrite !FCl by lia; unfold T2; simpl; intro E; exfalso.
        apply (LB (nx k) (n+1)); auto; lia. apply (LB (nx k) B); auto; lia. assert (B = n+1) by congruence. lia.
      + split. apply dist3; rewrite !FDv; unfold T3, ne in *; simpl; congruence.
        apply dist3o; rewrite !FDl by lia; unfold T3; simpl; intro E; exfalso.
        apply (LB (pv k) A); auto; lia. apply (LB (pv k) n); auto; lia. assert (A = n) by congruence. lia.
    - intros x c Hx Hc. fold n in Hx.
      assert (R A) by (left; auto). assert (R B) by (right; auto).
      assert (x = A \/ x = B \/ x = n \/ x = n + 1) as [->|[->|[->| ->]]] by (unfold R in Hx; lia); c3 c.
      + right. exists A, (nx e). rewrite FAl, !FAv by lia. repeat (split; [auto; fail|]). split; [intros r' [->| ->]; apply LA; auto|].
        split. unfold own. do 2 (destruct Nat.eq_dec; [|tauto]). auto.
        split; [reflexivity|]. split; simpl; [rewrite nxnx|rewrite pvnx by auto]; auto.
      + left. exists B, 2. split; [lia|]. unfold twin. rewrite FAl, FBl, !FAv, !FBv by lia. repeat split; auto.
      + left. exists (n+1), 1. split; [lia|]. unfold twin. rewrite FAl, FDl, !FAv, !FDv by lia. repeat split; auto.
      + right. exists A, (pv e). rewrite FBl, !FBv by lia. repeat (split; [auto; fail|]). split; [intros r' [->| ->]; apply LA; auto|].
        split. unfold own. destruct Nat.eq_dec; [|tauto]. destruct Nat.eq_dec; [congruence|auto].
        split; [reflexivity|]. split; simpl; [rewrite nxpv|rewrite pvpv]; auto.
      + left. exists n, 2. split; [lia|]. unfold twin. rewrite FBl, FCl, !FBv, !FCv by lia. repeat split; auto.
      + left. exists A, 1. split; [lia|]. unfold twin. rewrite FBl, FAl, !FBv, !FAv by lia. repeat split; auto.
      + right. exists B, (nx k). rewrite FCl, !FCv by lia. repeat (split; [auto; fail|]). split; [intros r' [->| ->]; apply LB; auto|].
        split. unfold own. destruct Nat.eq_dec; [congruence|]. destruct Nat.eq_dec; [auto|congruence].
        split; [reflexivity|]. split; simpl; [rewrite nxnx|rewrite pvnx]; auto.
      + left. exists (n+1), 2. split; [lia|]. unfold twin. rewrite FCl, FDl, !FCv, !FDv by lia. repeat split; auto.
      + left. exists B, 1. split; [lia|]. unfold twin. rewrite FCl, FBl, !FCv, !FBv by lia. repeat split; auto.
      + right. exists B, (pv k). rewrite FDl, !FDv by lia. repeat (split; [auto; fail|]). split; [intros r' [->| ->]; apply LB; auto|].
        split. unfold own. destruct Nat.eq_dec; [congruence|]. destruct Nat.eq_dec; [congruence|auto].
        split; [reflexivity|]. split; simpl; [rewrite nxpv|rewrite pvpv]; auto.
      + left. exists A, 2. split; [lia|]. unfold twin. rewrite FDl, FAl, !FDv, !FAv by lia. repeat split; auto.
      + left. exists n, 1. split; [lia|]. unfold twin. rewrite FDl, FCl, !FDv, !FCv by lia. repeat split; auto.
    - intros r i t Hr Hi E Hnr. fold n.
      destruct (tt_outer r i t Hr Hi E Hnr) as [(-> & ->)|[(-> & ->)|[(-> & ->)|(-> & ->)]]]; unfold own.
      + do 2 (destruct Nat.eq_dec; [|tauto]). split; [lia|]. split; [left; left; auto|].
        exists 0. rewrite FAl, !FAv by lia. repeat split; auto; simpl; [rewrite nxnx|rewrite pvnx]; auto.
      + destruct Nat.eq_dec; [|tauto]. destruct Nat.eq_dec; [congruence|]. split; [lia|]. split; [left; right; auto|].
        exists 0. rewrite FBl, !FBv by lia. repeat split; auto; simpl; [rewrite nxpv|rewrite pvpv]; auto.
      + destruct Nat.eq_dec; [congruence|]. destruct Nat.eq_dec; [|tauto]. split; [lia|]. split; [lia|].
        exists 0. rewrite FCl, !FCv by lia. repeat split; auto; simpl; [rewrite nxnx|rewrite pvnx]; auto.
      + destruct Nat.eq_dec; [congruence|]. destruct Nat.eq_dec; [congruence|]. split; [lia|]. split; [lia|].
        exists 0. rewrite FDl, !FDv by lia. repeat split; auto; simpl; [rewrite nxpv|rewrite pvpv]; auto.
    - intros r i r' i' t Hr Hr' Hi Hi' Hnr Et Et'.
      destruct (tt_outer r i t Hr Hi Et Hnr) as [(-> & ->)|[(-> & ->)|[(-> & ->)|(-> & ->)]]];
      destruct (tt_outer r' i' t Hr' Hi' Et' Hnr) as [(-> & ->)|[(-> & ->)|[(-> & ->)|(-> & ->)]]]; auto;
      unfold own; repeat destruct Nat.eq_dec; try congruence; try lia. }
  assert (PO : forall q, q < length po -> nth q po' (mkP None 0) =
     if Nat.eq_dec (V m B k) q then mkP (Some (n + 1)) 1 else if Nat.eq_dec (V m B (pv k)) q then mkP (Some n) 1 else
     if Nat.eq_dec (V m A e) q then mkP (Some B) 1 else if Nat.eq_dec (V m A (pv e)) q then mkP (Some A) 1 else
     if Nat.eq_dec p q then mkP (Some A) 0 else nth q po (mkP None 0)).
  { intros q Hq. unfold po'. rewrite !nth_upd by (lens; auto). auto. }
  split; [split; [exact OK|split]|].
  - rewrite Lpo. intros t i Htf Hi.
    destruct (Nat.eq_dec t A) as [->|]; [rewrite FAv; unfold T0; c3 i; simpl; auto|].
    destruct (Nat.eq_dec t B) as [->|]; [rewrite FBv; unfold T1; c3 i; simpl; auto|].
    destruct (Nat.eq_dec t n) as [->|]; [rewrite FCv; unfold T2; c3 i; simpl; auto|].
    destruct (Nat.eq_dec t (n+1)) as [->|]; [rewrite FDv; unfold T3; c3 i; simpl; auto|].
    rewrite FVo by lia. apply Hv; auto. fold n; lia.
  - rewrite Lpo. intros q t Hq. rewrite PO by auto.
    repeat (destruct Nat.eq_dec; [intro E; inversion E; subst t; simpl; rewrite ?FAv, ?FBv, ?FCv, ?FDv; repeat split; auto; lia|]).
    intro E. destruct (Hpe q t Hq E) as (H1 & H2 & H3). revert H2 H3. set (d := pd _). intros H2 H3.
    assert (t <> A). { intros ->. destruct (tri_cases d e H2 He) as [X|[X|X]]; rewrite X in H3; congruence. }
    assert (t <> B). { intros ->. destruct (tri_cases d k H2 Hk) as [X|[X|X]]; rewrite X in H3; congruence. }
    split; [clear - H1 Lenf; fold n in H1; rewrite Lenf; lia|]. split; auto. rewrite FVo by auto. auto.
  - split; [auto|]. split; [auto|].
    split. { apply dtri_eta; intros c Hc; [apply FAv|apply FAl; auto]. }
    split. { apply dtri_eta; intros c Hc; [apply FBv|apply FBl; auto]. }
    split. { apply dtri_eta; intros c Hc; [apply FCv|apply FCl; auto]. }
    split. { apply dtri_eta; intros c Hc; [apply FDv|apply FDl; auto]. }
    split; [auto|]. split.
    + intros t i Htn HtA HtB Hi.
      destruct (onat_eqP (L m t i) (Some A)) as [E|E]; [|destruct (onat_eqP (L m t i) (Some B)) as [E'|E']].
      * destruct (L_twin m t i A) as (k' & HT'); auto. rewrite (FL1 t i A k'), E by (auto; left; auto). split; intros; discriminate.
      * destruct (L_twin m t i B) as (k' & HT'); auto. rewrite (FL1 t i B k'), E' by (auto; right; auto). split; intros; discriminate.
      * rewrite FL2 by auto. tauto.
    + split. intros q Hq. rewrite PO by auto. repeat (destruct Nat.eq_dec; [simpl; congruence|]). auto.
      rewrite PO by auto. repeat (destruct Nat.eq_dec; [simpl; congruence|]). congruence.
Qed.
End Ins.

Section Flip.
Hypothesis Hab : V m A e <> V m B k.
Hypothesis HlA : L m A (pv e) = L m B (nx k) -> L m A (pv e) = None.
Hypothesis HlB : L m B (pv k) = L m A (nx e) -> L m B (pv k) = None.
Let n := length m.
Let T0 := mkT (V m A (nx e)) (V m B k) (V m A e) (Some B) (L m A (pv e)) (L m B (nx k)).
Let T1 := mkT (V m B (nx k)) (V m A e) (V m B k) (Some A) (L m B (pv k)) (L m A (nx e)).
Let own (r i : nat) : nat :=
  if Nat.eq_dec r A then (if Nat.eq_dec i (nx e) then B else A) else (if Nat.eq_dec i (nx k) then A else B).

Lemma FlipEdge_lem :
  wp (FlipEdge A e po m) (fun s => let '(b, (po', f)) := s in
    b = true /\ consistent po' f /\ length po' = length po /\ length f = n /\
    nth A f dtri0 = T0 /\ nth B f dtri0 = T1 /\
    (forall t i, t < n -> t <> A -> t <> B -> V f t i = V m t i) /\
    (forall t i, t < n -> t <> A -> t <> B -> i < 3 -> (L f t i = None <-> L m t i = None)) /\
    (forall q, q < length po -> pe (nth q po (mkP None 0)) <> None -> pe (nth q po' (mkP None 0)) <> None) /\
    (forall t i, t < n -> t <> A -> t <> B -> i < 3 -> L m t i <> Some A -> L m t i <> Some B -> L f t i = L m t i) /\
    (forall q, q < length po -> nth q po' (mkP None 0) =
       if Nat.eq_dec (V m B k) q then mkP (Some B) 2 else if Nat.eq_dec (V m B (nx k)) q then mkP (Some B) 0 else
       if Nat.eq_dec (V m A e) q then mkP (Some A) 2 else if Nat.eq_dec (V m A (nx e)) q then mkP (Some A) 0 else
       nth q po (mkP None 0))).
Proof.
  pose proof tt_ok as Ht. pose proof tt_B as HB. pose proof tt_AB as HAB. pose proof tt_e as He. pose proof tt_k as Hk.
  fold n in HA, HB.
  pose proof (nx_neq e He) as E1. pose proof (pv_neq e He) as E2. pose proof (nxpv_neq e He) as E3.
  pose proof (nx_neq k Hk) as E4. pose proof (pv_neq k Hk) as E5. pose proof (nxpv_neq k Hk) as E6.
  assert (LA : forall i x, i < 3 -> i <> e -> x = A \/ x = B \/ n <= x -> L m A i <> Some x).
  { intros i x Hi Hie Hx E. destruct (tt_outA i x Hi Hie E) as (Y1 & Y2 & Y3). fold n in Y1. lia. }
  assert (LB : forall i x, i < 3 -> i <> k -> x = A \/ x = B \/ n <= x -> L m B i <> Some x).
  { intros i x Hi Hie Hx E. destruct (tt_outB i x Hi Hie E) as (Y1 & Y2 & Y3). fold n in Y1. lia. }
  destruct HC as (_ & Hv & Hpe).
  unfold FlipEdge. apply wp_bind, wp_assertb. { apply andb_true_intro. split; apply Nat.ltb_lt; auto. }
  apply wp_bind. apply (wp_vget _ dtri0). { auto. }
  rewrite gs_lnk by auto. cbn [bind]. change (lnk (nth A m dtri0) e) with (L m A e). rewrite tt_LA.
  apply wp_bind, wp_assertb. { apply Nat.ltb_lt; auto. }
  rewrite tt_FindAdj. cbn [bind]. apply wp_bind, wp_assertb. { apply Nat.ltb_lt; auto. }
  apply wp_bind. apply (wp_vget _ dtri0). { auto. }
  rewrite gs_lnk by auto. cbn [bind]. change (lnk (nth B m dtri0) k) with (L m B k).
  apply wp_bind, wp_assertb. { destruct (onat_eqP (L m B k) (Some A)) as [|X]; auto. exfalso. apply X, tt_LB. }
  change ((e + 1) mod 3) with (nx e). change ((e + 2) mod 3) with (pv e).
  change ((k + 1) mod 3) with (nx k). change ((k + 2) mod 3) with (pv k).
  rewrite !gv_vtx, !gs_lnk by auto. cbn [bind].
  repeat change (vtx (nth A m dtri0)) with (V m A). repeat change (vtx (nth B m dtri0)) with (V m B).
  repeat change (lnk (nth A m dtri0)) with (L m A). repeat change (lnk (nth B m dtri0)) with (L m B).
  apply wp_bind, wp_assertb. { apply Nat.eqb_eq. apply tt_a1. }
  apply wp_bind, wp_assertb. { apply Nat.eqb_eq. apply tt_a2. }
  pose proof (tt_vA _ He) as VA0. pose proof (tt_vA _ (nx_lt e)) as VA1. pose proof (tt_vA _ (pv_lt e)) as VA2.
  pose proof (tt_vB _ Hk) as VB0. pose proof (tt_vB _ (nx_lt k)) as VB1. pose proof (tt_vB _ (pv_lt k)) as VB2.
  apply wp_bind, wp_vset. { auto. }
  apply wp_bind, wp_vset. { lens; auto. }
  apply wp_bind, wp_vset. { lens; auto. }
  apply wp_bind, wp_vset. { lens; auto. }
  set (po' := upd _ (V m B k) _).
  assert (Lpo : length po' = length po) by (unfold po'; lens; auto).
  apply wp_bind, wp_vset. { auto. } fold T0.
  set (m1 := upd _ A T0). assert (Lm1 : length m1 = n) by (unfold m1; lens; auto).
  assert (V1 : forall t c, V m1 t c = if Nat.eq_dec A t then vtx T0 c else V m t c).
  { intros. unfold m1. rewrite V_upd by auto. auto. }
  assert (L1 : forall t c, L m1 t c = if Nat.eq_dec A t then lnk T0 c else L m t c).
  { intros. unfold m1. rewrite L_upd by auto. auto. }
  clearbody m1.
  apply wp_bind, wp_assertb.
  { destruct (onat_eqP (L m A (pv e)) (Some B)) as [X|_]; [exfalso; apply (LA (pv e) B); auto|].
    destruct (onat_eqP (L m A (pv e)) (Some A)) as [X|_]; [exfalso; apply (LA (pv e) A); auto|]. reflexivity. }
  apply wp_bind. eapply wp_mono.
  { apply relink_ok; auto. fold n; lia. intros j c E Hc. destruct (tt_outA (pv e) j) as (X1 & X2 & X3); auto.
    rewrite V1. destruct Nat.eq_dec; [lia|]. auto. }
  intros m2 (Lm2 & Vm2 & Lm2a & Lm2b).
  apply wp_bind, wp_assertb.
  { destruct (onat_eqP (L m B (nx k)) (Some B)) as [X|_]; [exfalso; apply (LB (nx k) B); auto|].
    destruct (onat_eqP (L m B (nx k)) (Some A)) as [X|_]; [exfalso; apply (LB (nx k) A); auto|]. reflexivity. }
  apply wp_bind. eapply wp_mono.
  { apply relink_ok; auto. fold n; lia. intros j c E Hc. destruct (tt_outB (nx k) j) as (X1 & X2 & X3); auto.
    rewrite Vm2, V1. destruct Nat.eq_dec; [lia|]. auto. }
  intros m3 (Lm3 & Vm3 & Lm3a & Lm3b).
  apply wp_bind, wp_vset. { lia. } fold T1.
  set (m4 := upd m3 B T1). assert (Lm4 : length m4 = n) by (unfold m4; lens; lia).
  assert (V4 : forall t c, V m4 t c = if Nat.eq_dec B t then vtx T1 c else V m1 t c).
  { intros. unfold m4. rewrite V_upd by lia. rewrite Vm3, Vm2. auto. }
  assert (L4 : forall t c, L m4 t c = if Nat.eq_dec B t then lnk T1 c else L m3 t c).
  { intros. unfold m4. rewrite L_upd by lia. auto. }
  clearbody m4.
  apply wp_bind. eapply wp_mono.
  { apply relink_ok; auto. fold n; lia. intros j c E Hc. destruct (tt_outB (pv k) j) as (X1 & X2 & X3); auto.
    rewrite V4, V1. do 2 (destruct Nat.eq_dec; [lia|]). auto. }
  intros m5 (Lm5 & Vm5 & Lm5a & Lm5b).
  apply wp_bind. eapply wp_mono.
  { apply relink_ok; auto. fold n; lia. intros j c E Hc. destruct (tt_outA (nx e) j) as (X1 & X2 & X3); auto.
    rewrite Vm5, V4, V1. do 2 (destruct Nat.eq_dec; [lia|]). auto. }
  intros f (Lf & Vf & Lfa & Lfb). apply wp_some.
  assert (Lenf : length f = n) by lia.
  assert (Fv : forall t c, V f t c = if Nat.eq_dec B t then vtx T1 c else if Nat.eq_dec A t then vtx T0 c else V m t c).
  { intros. rewrite Vf, Vm5, V4, V1. auto. }
  assert (Fl : forall t c, t = A \/ t = B -> c < 3 ->
     L f t c = if Nat.eq_dec B t then lnk T1 c else if Nat.eq_dec A t then lnk T0 c else L m t c).
  { intros t c Hx Hc. rewrite Lfb by (auto; apply tt_noA; auto; lia). rewrite Lm5b by (auto; apply tt_noB; auto; lia).
    rewrite L4. destruct Nat.eq_dec; auto.
    rewrite Lm3b by (auto; apply tt_noB; auto; lia). rewrite Lm2b, L1 by (auto; apply tt_noA; auto; lia). auto. }
  assert (FAv : forall c, V f A c = vtx T0 c).
  { intros. rewrite Fv. destruct Nat.eq_dec; [lia|]. destruct Nat.eq_dec; [auto|lia]. }
  assert (FBv : forall c, V f B c = vtx T1 c).
  { intros. rewrite Fv. destruct Nat.eq_dec; [auto|lia]. }
  assert (FAl : forall c, c < 3 -> L f A c = lnk T0 c).
  { intros. rewrite Fl by auto. destruct Nat.eq_dec; [lia|]. destruct Nat.eq_dec; [auto|lia]. }
  assert (FBl : forall c, c < 3 -> L f B c = lnk T1 c).
  { intros. rewrite Fl by auto. destruct Nat.eq_dec; [auto|lia]. }
  assert (FVo : forall t i, t < n -> t <> A -> t <> B -> V f t i = V m t i).
  { intros. rewrite Fv. do 2 (destruct Nat.eq_dec; [lia|]). auto. }
  assert (FL1 : forall t c r i, t < n -> t <> A -> t <> B -> R r -> twin m t c r i -> L f t c = Some (own r i)).
  { intros t c r i Htn HtA HtB HRr HTt. pose proof (twin_sym _ _ _ _ _ HTt) as HTs.
    assert (Hc : c < 3) by apply HTt. assert (Hi : i < 3) by apply HTs.
    assert (U : forall r' i', (r, i) <> (r', i') -> ~ twin m r' i' t c) by (intros; eapply tt_other; eauto).
    assert (NR : ~ R t) by (unfold R; lia).
    destruct (tt_outer r i t HRr Hi) as [(-> & ->)|[(-> & ->)|[(-> & ->)|(-> & ->)]]]; auto; [apply HTs| | | |]; unfold own.
    - do 2 (destruct Nat.eq_dec; [|tauto]). auto.
    - destruct Nat.eq_dec; [|tauto]. destruct Nat.eq_dec; [congruence|].
      rewrite Lfb by (auto; apply U; congruence). rewrite Lm5b, L4 by (auto; apply U; congruence).
      destruct Nat.eq_dec; [lia|]. rewrite Lm3b by (auto; apply U; congruence). auto.
    - destruct Nat.eq_dec; [congruence|]. destruct Nat.eq_dec; [|tauto].
      rewrite Lfb by (auto; apply U; congruence). rewrite Lm5b, L4 by (auto; apply U; congruence).
      destruct Nat.eq_dec; [lia|]. auto.
    - do 2 (destruct Nat.eq_dec; [congruence|]). rewrite Lfb by (auto; apply U; congruence). auto. }
  assert (FL2 : forall t c, t < n -> t <> A -> t <> B -> c < 3 -> L m t c <> Some A -> L m t c <> Some B -> L f t c = L m t c).
  { intros t c Htn HtA HtB Hc Hno1 Hno2.
    assert (UA : forall i, ~ twin m A i t c) by (intros i (_ & _ & _ & E & _); auto).
    assert (UB : forall i, ~ twin m B i t c) by (intros i (_ & _ & _ & E & _); auto).
    rewrite Lfb, Lm5b, L4 by auto. destruct Nat.eq_dec; [lia|]. rewrite Lm3b, Lm2b, L1 by auto. destruct Nat.eq_dec; [lia|].
    auto. }
  pose proof (tt_dA e (nx e) He (nx_lt e) ltac:(auto)) as Q1. pose proof (tt_dA e (pv e) He (pv_lt e) ltac:(auto)) as Q2.
  pose proof (tt_dB k (nx k) Hk (nx_lt k) ltac:(auto)) as Q3. pose proof (tt_dB k (pv k) Hk (pv_lt k) ltac:(auto)) as Q4.
  fold (ne (V m A e) (V m A (nx e))) in Q1. fold (ne (V m A e) (V m A (pv e))) in Q2.
  fold (ne (V m B k) (V m B (nx k))) in Q3. fold (ne (V m B k) (V m B (pv k))) in Q4.
  pose proof tt_a1 as QA1. pose proof tt_a2 as QA2.
  assert (OK : tri_ok f).
  { apply (retri_ok m f R own); auto.
    - lia.
    - intros r [->| ->]; auto.
    - intro t. unfold R. destruct (Nat.eq_dec t A), (Nat.eq_dec t B); auto. right; lia.
    - intros t c Htn HR' Hc. apply FVo; auto; unfold R in HR'; lia.
    - intros t c r i Htn HR' Hr HTt. apply FL1; auto; unfold R in HR'; lia.
    - intros t c Htn HR' Hc Hno. apply FL2; auto; unfold R in *; auto.
    - intros x Hx. fold n in Hx. assert (x = A \/ x = B) as [->| ->] by (unfold R in Hx; lia).
      + split. apply dist3; rewrite !FAv; unfold T0, ne in *; simpl; congruence.
        apply dist3o; rewrite !FAl by lia; unfold T0; simpl; intro E; auto; exfalso.
        apply (LA (pv e) B); auto. apply (LB (nx k) B); auto; lia.
      + split. apply dist3; rewrite !FBv; unfold T1, ne in *; simpl; congruence.
        apply dist3o; rewrite !FBl by lia; unfold T1; simpl; intro E; auto; exfalso.
        apply (LB (pv k) A); auto; lia. apply (LA (nx e) A); auto; lia.
    - intros x c Hx Hc. fold n in Hx.
      assert (R A) by (left; auto). assert (R B) by (right; auto).
      assert (x = A \/ x = B) as [->| ->] by (unfold R in Hx; lia); c3 c.
      + left. exists B, 0. split; [lia|]. unfold twin. rewrite FAl, FBl, !FAv, !FBv by lia. repeat split; auto.
      + right. exists A, (pv e). rewrite FAl, !FAv by lia. repeat (split; [auto; fail|]). split; [intros r' [->| ->]; apply LA; auto|].
        split. unfold own. destruct Nat.eq_dec; [|tauto]. destruct Nat.eq_dec; [congruence|auto].
        split; [reflexivity|]. split; simpl; [rewrite nxpv|rewrite pvpv]; auto.
      + right. exists B, (nx k). rewrite FAl, !FAv by lia. repeat (split; [auto; fail|]). split; [intros r' [->| ->]; apply LB; auto|].
        split. unfold own. destruct Nat.eq_dec; [congruence|]. destruct Nat.eq_dec; [auto|congruence].
        split; [reflexivity|]. split; simpl; [rewrite nxnx|rewrite pvnx]; auto.
      + left. exists A, 0. split; [lia|]. unfold twin. rewrite FAl, FBl, !FAv, !FBv by lia. repeat split; auto.
      + right. exists B, (pv k). rewrite FBl, !FBv by lia. repeat (split; [auto; fail|]). split; [intros r' [->| ->]; apply LB; auto|].
        split. unfold own. destruct Nat.eq_dec; [congruence|]. destruct Nat.eq_dec; [congruence|auto].
        split; [reflexivity|]. split; simpl; [rewrite nxpv|rewrite pvpv]; auto.
      + right. exists A, (nx e). rewrite FBl, !FBv by lia. repeat (split; [auto; fail|]). split; [intros r' [->| ->]; apply LA; auto|].
        split. unfold own. do 2 (destruct Nat.eq_dec; [|tauto]). auto.
        split; [reflexivity|]. split; simpl; [rewrite nxnx|rewrite pvnx by auto]; auto.
    - intros r i t Hr Hi E Hnr. fold n.
      destruct (tt_outer r i t Hr Hi E Hnr) as [(-> & ->)|[(-> & ->)|[(-> & ->)|(-> & ->)]]]; unfold own.
      + do 2 (destruct Nat.eq_dec; [|tauto]). split; [lia|]. split; [left; right; auto|].
        exists 2. rewrite FBl, !FBv by lia. repeat split; auto; simpl; [rewrite nxnx|rewrite pvnx]; auto.
      + destruct Nat.eq_dec; [|tauto]. destruct Nat.eq_dec; [congruence|]. split; [lia|]. split; [left; left; auto|].
        exists 1. rewrite FAl, !FAv by lia. repeat split; auto; simpl; [rewrite nxpv|rewrite pvpv]; auto.
      + destruct Nat.eq_dec; [congruence|]. destruct Nat.eq_dec; [|tauto]. split; [lia|]. split; [left; left; auto|].
        exists 2. rewrite FAl, !FAv by lia. repeat split; auto; simpl; [rewrite nxnx|rewrite pvnx]; auto.
      + destruct Nat.eq_dec; [congruence|]. destruct Nat.eq_dec; [congruence|]. split; [lia|]. split; [left; right; auto|].
        exists 1. rewrite FBl, !FBv by lia. repeat split; auto; simpl; [rewrite nxpv|rewrite pvpv]; auto.
    - intros r i r' i' t Hr Hr' Hi Hi' Hnr Et Et'.
      destruct (tt_outer r i t Hr Hi Et Hnr) as [(-> & ->)|[(-> & ->)|[(-> & ->)|(-> & ->)]]];
      destruct (tt_outer r' i' t Hr' Hi' Et' Hnr) as [(-> & ->)|[(-> & ->)|[(-> & ->)|(-> & ->)]]]; auto;
      unfold own; repeat destruct Nat.eq_dec; try congruence; intros _; exfalso;
      first [rewrite HlA in Et by congruence; discriminate|rewrite HlB in Et by congruence; discriminate
            |rewrite HlA in Et' by congruence; discriminate|rewrite HlB in Et' by congruence; discriminate]. }
  assert (PO : forall q, q < length po -> nth q po' (mkP None 0) =
     if Nat.eq_dec (V m B k) q then mkP (Some B) 2 else if Nat.eq_dec (V m B (nx k)) q then mkP (Some B) 0 else
     if Nat.eq_dec (V m A e) q then mkP (Some A) 2 else if Nat.eq_dec (V m A (nx e)) q then mkP (Some A) 0 else
     nth q po (mkP None 0)).
  { intros q Hq. unfold po'. rewrite !nth_upd by (lens; auto). auto. }
  split; [reflexivity|]. split; [split; [exact OK|split]|].
  - rewrite Lpo. intros t i Htf Hi.
    destruct (Nat.eq_dec t A) as [->|]; [rewrite FAv; unfold T0; c3 i; simpl; auto|].
    destruct (Nat.eq_dec t B) as [->|]; [rewrite FBv; unfold T1; c3 i; simpl; auto|].
    rewrite FVo by lia. apply Hv; auto. fold n; lia.
  - rewrite Lpo. intros q t Hq. rewrite PO by auto.
    repeat (destruct Nat.eq_dec; [intro E; inversion E; subst t; simpl; rewrite ?FAv, ?FBv; repeat split; auto; lia|]).
    intro E. destruct (Hpe q t Hq E) as (H1 & H2 & H3). revert H2 H3. set (d := pd _). intros H2 H3.
    assert (t <> A). { intros ->. destruct (tri_cases d e H2 He) as [X|[X|X]]; rewrite X in H3; congruence. }
    assert (t <> B). { intros ->. destruct (tri_cases d k H2 Hk) as [X|[X|X]]; rewrite X in H3; congruence. }
    split; [clear - H1 Lenf; fold n in H1; rewrite Lenf; lia|]. split; auto. rewrite FVo by auto. auto.
  - split; [auto|]. split; [auto|].
    split. { apply dtri_eta; intros c Hc; [apply FAv|apply FAl; auto]. }
    split. { apply dtri_eta; intros c Hc; [apply FBv|apply FBl; auto]. }
    split; [auto|]. split.
    + intros t i Htn HtA HtB Hi.
      destruct (onat_eqP (L m t i) (Some A)) as [E|E]; [|destruct (onat_eqP (L m t i) (Some B)) as [E'|E']].
      * destruct (L_twin m t i A) as (k' & HT'); auto. rewrite (FL1 t i A k'), E by (auto; left; auto). split; intros; discriminate.
      * destruct (L_twin m t i B) as (k' & HT'); auto. rewrite (FL1 t i B k'), E' by (auto; right; auto). split; intros; discriminate.
      * rewrite FL2 by auto. tauto.
    + split; [|split; [exact FL2|exact PO]].
      intros q Hq. rewrite PO by auto. repeat (destruct Nat.eq_dec; [simpl; congruence|]). auto.
Qed.
End Flip.
End TwoTri.

Lemma FlipEdge_boundary : forall po m A e, A < length m -> e < 3 -> L m A e = None ->
  FlipEdge A e po m = Some (false, (po, m)).
Proof.
  intros po m A e HA He E. unfold FlipEdge.
  rewrite (proj2 (Nat.ltb_lt _ _) HA), (proj2 (Nat.ltb_lt _ _) He). cbn [andb assertb bind].
  rewrite (vget_nth _ dtri0) by auto. cbn [bind]. rewrite gs_lnk by auto. cbn [bind].
  change (lnk (nth A m dtri0) e) with (L m A e). rewrite E. reflexivity.
Qed.
