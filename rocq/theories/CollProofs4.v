(** The mesh after gluing and renaming, before the two triangles are taken out. *)
From Coq Require Import List Arith Lia Bool Relations.
Import ListNotations.
From Verif Require Import Imp DtriModel DtriSpec CollModel CollSpec DtriProofs1 DtriProofs2 DtriProofs4 CollProofs1 CollProofs2 CollProofs3.

Section Merge.
Variables (m : list dtri) (A e B k C c D d E g F f : nat).
Hypothesis Hm : tri_ok m.
Hypothesis HA : A < length m.
Hypothesis TB : twin m A e B k.
Hypothesis TC : twin m A (nx e) C c.
Hypothesis TD : twin m A (pv e) D d.
Hypothesis TE : twin m B (nx k) E g.
Hypothesis TF : twin m B (pv k) F f.
Hypothesis Honce : edge_once m A e B.
Let X := V m A (nx e). Let Z := V m A (pv e). Let W := V m A e. Let Y := V m B k.

Lemma he : e < 3. Proof. apply TB. Qed.
Lemma hk : k < 3. Proof. apply TB. Qed.
Lemma hc : c < 3. Proof. apply TC. Qed.
Lemma hd' : d < 3. Proof. apply TD. Qed.
Lemma hg : g < 3. Proof. apply TE. Qed.
Lemma hf : f < 3. Proof. apply TF. Qed.
Lemma HB : B < length m. Proof. apply (twin_vc m A e B k); auto. Qed.
Lemma HC : C < length m. Proof. apply (twin_vc m A (nx e) C c); auto. Qed.
Lemma HD : D < length m. Proof. apply (twin_vc m A (pv e) D d); auto. Qed.
Lemma HE : E < length m. Proof. apply (twin_vc m B (nx k) E g); auto using HB. Qed.
Lemma HF : F < length m. Proof. apply (twin_vc m B (pv k) F f); auto using HB. Qed.
Hint Resolve he hk hc hd' hg hf HB HC HD HE HF : core.
Lemma vB1 : V m B (nx k) = Z. Proof. symmetry. apply TB. Qed.
Lemma vB2 : V m B (pv k) = X. Proof. symmetry. apply TB. Qed.
Lemma vC1 : V m C (nx c) = W. Proof. destruct TC as (_ & _ & _ & _ & _ & H). rewrite <- H, pv_nx; auto. Qed.
Lemma vC2 : V m C (pv c) = Z. Proof. destruct TC as (_ & _ & _ & _ & H & _). rewrite <- H, nx_nx; auto. Qed.
Lemma vD1 : V m D (nx d) = X. Proof. destruct TD as (_ & _ & _ & _ & _ & H). rewrite <- H, pv_pv; auto. Qed.
Lemma vD2 : V m D (pv d) = W. Proof. destruct TD as (_ & _ & _ & _ & H & _). rewrite <- H, nx_pv; auto. Qed.
Lemma vE1 : V m E (nx g) = Y. Proof. destruct TE as (_ & _ & _ & _ & _ & H). rewrite <- H, pv_nx; auto. Qed.
Lemma vE2 : V m E (pv g) = X. Proof. destruct TE as (_ & _ & _ & _ & H & _). rewrite <- H, nx_nx by auto. apply vB2. Qed.
Lemma vF1 : V m F (nx f) = Z. Proof. destruct TF as (_ & _ & _ & _ & _ & H). rewrite <- H, pv_pv by auto. apply vB1. Qed.
Lemma vF2 : V m F (pv f) = Y. Proof. destruct TF as (_ & _ & _ & _ & H & _). rewrite <- H, nx_pv; auto. Qed.

Lemma dA : forall i j, i < 3 -> j < 3 -> V m A i = V m A j -> i = j. Proof. apply (Hm A HA). Qed.
Lemma dB : forall i j, i < 3 -> j < 3 -> V m B i = V m B j -> i = j. Proof. apply (Hm B HB). Qed.
Lemma XZ : X <> Z. Proof. intros H. apply dA in H; auto. apply (nx_ne_pv e); auto. Qed.
Lemma XW : X <> W. Proof. intros H. apply dA in H; auto. apply (nx_ne e); auto. Qed.
Lemma ZW : Z <> W. Proof. intros H. apply dA in H; auto. apply (pv_ne e); auto. Qed.
Lemma XY : X <> Y. Proof. rewrite <- vB2. intros H. apply dB in H; auto. apply (pv_ne k); auto. Qed.
Lemma ZY : Z <> Y. Proof. rewrite <- vB1. intros H. apply dB in H; auto. apply (nx_ne k); auto. Qed.

Lemma nAB : A <> B. Proof. eapply fAB; eauto. Qed.
Lemma nCA : C <> A. Proof. eapply fAC; eauto. Qed.
Lemma nCB : C <> B. Proof. eapply fBC; eauto. Qed.
Lemma nDA : D <> A. Proof. intros H. apply (no_self m A (pv e)); auto. rewrite <- H at 2. apply TD. Qed.
Lemma nDB : D <> B.
Proof. intros H. apply (pv_ne e); auto. apply (two_links m A (pv e) e B); auto; [rewrite <- H; apply TD|apply TB]. Qed.
Lemma nEB : E <> B. Proof. intros H. apply (no_self m B (nx k)); auto. rewrite <- H at 2. apply TE. Qed.
Lemma nEA : E <> A.
Proof. intros H. apply (nx_ne k); auto. apply (two_links m B (nx k) k A); auto; [rewrite <- H; apply TE|apply TB]. Qed.
Lemma nFB : F <> B. Proof. eapply fBF; eauto. Qed.
Lemma nFA : F <> A. Proof. apply (fAF m A e B k F f Hm HA TB TF). Qed.
Lemma nCD : C <> D.
Proof. intros H. apply (nx_ne_pv e); auto. apply (two_links m A (nx e) (pv e) C); auto; [apply TC|rewrite H; apply TD]. Qed.
Lemma nEF : E <> F.
Proof. intros H. apply (nx_ne_pv k); auto. apply (two_links m B (nx k) (pv k) E); auto; [apply TE|rewrite H; apply TF]. Qed.

(** no other triangle has both ends *)
Lemma not_both : forall t i j, t < length m -> t <> A -> t <> B -> i < 3 -> j < 3 -> V m t i = X -> V m t j = Z -> False.
Proof. intros t i j Ht HtA HtB Hi Hj E1 E2. destruct (Honce t Ht); [exists i; auto|exists j; auto|auto|auto]. Qed.
Lemma nCE : C <> E.
Proof. intros H. apply (not_both C (pv g) (pv c)); auto using nCA, nCB, vC2. rewrite H. apply vE2. Qed.
Lemma nDF : D <> F.
Proof. intros H. apply (not_both D (nx d) (nx f)); auto using nDA, nDB, vD1. rewrite H. apply vF1. Qed.

Lemma lC : L m C c = Some A. Proof. apply TC. Qed.
Lemma lD : L m D d = Some A. Proof. apply TD. Qed.
Lemma lE : L m E g = Some B. Proof. apply TE. Qed.
Lemma lF : L m F f = Some B. Proof. apply TF. Qed.

(** who is linked to A, to B *)
Lemma to_A : forall t i, t < length m -> i < 3 -> L m t i = Some A -> (t, i) = (C, c) \/ (t, i) = (D, d) \/ (t, i) = (B, k).
Proof.
  intros t i Ht Hi H. destruct (L_twin m t i A Hm Ht Hi H) as (j & T). assert (Hj : j < 3) by apply T. apply twin_sym in T.
  destruct (ix3 e j he Hj) as [-> | [-> | ->]].
  - destruct (twin_fun _ _ _ _ _ _ _ Hm HA T TB) as (-> & ->). auto.
  - destruct (twin_fun _ _ _ _ _ _ _ Hm HA T TC) as (-> & ->). auto.
  - destruct (twin_fun _ _ _ _ _ _ _ Hm HA T TD) as (-> & ->). auto.
Qed.
Lemma to_B : forall t i, t < length m -> i < 3 -> L m t i = Some B -> (t, i) = (E, g) \/ (t, i) = (F, f) \/ (t, i) = (A, e).
Proof.
  intros t i Ht Hi H. destruct (L_twin m t i B Hm Ht Hi H) as (j & T). assert (Hj : j < 3) by apply T. apply twin_sym in T.
  destruct (ix3 k j hk Hj) as [-> | [-> | ->]].
  - destruct (twin_fun _ _ _ _ _ _ _ Hm HB T (twin_sym _ _ _ _ _ TB)) as (-> & ->). auto.
  - destruct (twin_fun _ _ _ _ _ _ _ Hm HB T TE) as (-> & ->). auto.
  - destruct (twin_fun _ _ _ _ _ _ _ Hm HB T TF) as (-> & ->). auto.
Qed.

(** apart from A the two triangles behind A have no common edge *)
Hypothesis N1 : L m C (pv c) <> Some D.
Hypothesis N2 : L m E (pv g) <> Some F.
Hypothesis N3 : ~ (C = F /\ D = E).
Lemma side_CD : forall j, j < 3 -> L m C j <> Some D.
Proof.
  intros j Hj H. destruct (ix3 c j hc Hj) as [-> | [-> | ->]]; [rewrite lC in H; inversion H; apply nDA; auto| |auto].
  destruct (L_twin m C (nx c) D Hm HC Hj H) as (i & T). destruct T as (_ & Hi & _ & _ & T & _).
  rewrite nx_nx, vC2 in T by auto. symmetry in T. apply (not_both D (nx d) (pv i)); auto using nDA, nDB, vD1.
Qed.
Lemma side_DC : forall j, j < 3 -> L m D j <> Some C.
Proof.
  intros j Hj H. destruct (L_twin m D j C Hm HD Hj H) as (i & T). apply (side_CD i); apply T.
Qed.
Lemma side_EF : forall j, j < 3 -> L m E j <> Some F.
Proof.
  intros j Hj H. destruct (ix3 g j hg Hj) as [-> | [-> | ->]]; [rewrite lE in H; inversion H; apply nFB; auto| |auto].
  destruct (L_twin m E (nx g) F Hm HE Hj H) as (i & T). destruct T as (_ & Hi & _ & _ & T & _).
  rewrite nx_nx, vE2 in T by auto. symmetry in T. apply (not_both F (pv i) (nx f)); auto using nFA, nFB, vF1.
Qed.
Lemma side_FE : forall j, j < 3 -> L m F j <> Some E.
Proof.
  intros j Hj H. destruct (L_twin m F j E Hm HF Hj H) as (i & T). apply (side_EF i); apply T.
Qed.

(** the fan, as a set of corners *)
Variable O : nat * nat -> Prop.
Hypothesis Odec : forall x, {O x} + {~ O x}.
Hypothesis OP : forall x, O x -> vc m x /\ P m x = Z.
Hypothesis OT : forall x y, vc m x -> turn m x y -> (O x <-> O y).
Hypothesis OC : O (C, pv c).
Hypothesis OF : O (F, nx f).

Variable h : list dtri.
Hypothesis Hlen : length h = length m.
Hypothesis HV : forall t i, t < length m -> i < 3 -> t <> A -> t <> B -> V h t i = if Odec (t, i) then X else V m t i.
Hypothesis HVA : forall i, i < 3 -> V h A i = V m A i.
Hypothesis HVB : forall i, i < 3 -> V h B i = V m B i.
Hypothesis HLA : forall i, i < 3 -> L h A i = None.
Hypothesis HLB : forall i, i < 3 -> L h B i = None.
Hypothesis HLC : L h C c = Some D.
Hypothesis HLD : L h D d = Some C.
Hypothesis HLE : L h E g = Some F.
Hypothesis HLF : L h F f = Some E.
Hypothesis HL : forall t i, t < length m -> i < 3 -> t <> A -> t <> B -> L m t i <> Some A -> L m t i <> Some B -> L h t i = L m t i.

Lemma L_cases : forall t i, t < length m -> i < 3 -> t <> A -> t <> B ->
  ((t, i) = (C, c) /\ L h t i = Some D) \/ ((t, i) = (D, d) /\ L h t i = Some C) \/
  ((t, i) = (E, g) /\ L h t i = Some F) \/ ((t, i) = (F, f) /\ L h t i = Some E) \/
  (L m t i <> Some A /\ L m t i <> Some B /\ L h t i = L m t i).
Proof.
  intros t i Ht Hi HtA HtB.
  destruct (onat_eqP (L m t i) (Some A)) as [EA|EA].
  { destruct (to_A t i Ht Hi EA) as [H|[H|H]]; inversion H; subst; auto; tauto. }
  destruct (onat_eqP (L m t i) (Some B)) as [EB|EB].
  { destruct (to_B t i Ht Hi EB) as [H|[H|H]]; inversion H; subst; auto; tauto. }
  do 4 right. auto.
Qed.
Lemma not_O : forall t i, V m t i <> Z -> ~ O (t, i).
Proof. intros t i H HO. apply OP in HO. destruct HO as (_ & H'). apply H. exact H'. Qed.
Lemma V_no : forall t i, t < length m -> i < 3 -> t <> A -> t <> B -> V m t i <> Z -> V h t i = V m t i.
Proof. intros t i Ht Hi HtA HtB H. rewrite HV by auto. destruct Odec as [HO|]; auto. exfalso. apply (not_O t i); auto. Qed.
Lemma V_O : forall t i, O (t, i) -> t <> A -> t <> B -> V h t i = X.
Proof. intros t i HO HtA HtB. destruct (OP _ HO) as ((Ht & Hi) & _). rewrite HV by auto. destruct Odec; tauto. Qed.

Lemma merge_tri_ok : tri_ok h.
Proof.
  intros t Ht. rewrite Hlen in Ht.
  destruct (Nat.eq_dec t A) as [EtA|HtA].
  { rewrite EtA. split; [|split].
    - intros i j Hi Hj. rewrite !HVA by auto. apply dA; auto.
    - intros i j Hi Hj _ H. rewrite HLA in H by auto. tauto.
    - intros i j Hi H. rewrite HLA in H by auto. discriminate. }
  destruct (Nat.eq_dec t B) as [EtB|HtB].
  { rewrite EtB. split; [|split].
    - intros i j Hi Hj. rewrite !HVB by auto. apply dB; auto.
    - intros i j Hi Hj _ H. rewrite HLB in H by auto. tauto.
    - intros i j Hi H. rewrite HLB in H by auto. discriminate. }
  destruct (Hm t Ht) as (Q1 & Q2 & Q3).
  split; [|split].
  - intros i j Hi Hj. rewrite !HV by auto. destruct (Odec (t, i)) as [Oi|Oi], (Odec (t, j)) as [Oj|Oj]; intros H.
    + apply Q1; auto. apply OP in Oi, Oj. destruct Oi as (_ & Oi), Oj as (_ & Oj). unfold P in *. cbn in *. congruence.
    + exfalso. apply OP in Oi. destruct Oi as (_ & Oi). apply (not_both t j i); auto.
    + exfalso. apply OP in Oj. destruct Oj as (_ & Oj). apply (not_both t i j); auto.
    + apply Q1; auto.
  - intros i j Hi Hj H Hn.
    destruct (L_cases t i Ht Hi HtA HtB) as [(Ei & Hi')|[(Ei & Hi')|[(Ei & Hi')|[(Ei & Hi')|(Ni1 & Ni2 & Hi')]]]];
    destruct (L_cases t j Ht Hj HtA HtB) as [(Ej & Hj')|[(Ej & Hj')|[(Ej & Hj')|[(Ej & Hj')|(Nj1 & Nj2 & Hj')]]]];
    rewrite Hi', Hj' in H; try (rewrite Hi' in Hn);
    try (inversion Ei as [[Ei1 Ei2]]); try (inversion Ej as [[Ej1 Ej2]]); try congruence;
    try (exfalso; assert (H0 : D = F) by congruence; apply nDF; auto; fail);
    try (exfalso; assert (H0 : C = E) by congruence; apply nCE; auto; fail);
    try (exfalso; apply N3; split; congruence).
    all: first [apply Q2; auto; fail | exfalso; apply nCD; congruence | exfalso; apply nEF; congruence | exfalso; apply (side_CD i Hi); congruence | exfalso; apply (side_DC i Hi); congruence | exfalso; apply (side_EF i Hi); congruence | exfalso; apply (side_FE i Hi); congruence | exfalso; apply (side_CD j Hj); congruence | exfalso; apply (side_DC j Hj); congruence | exfalso; apply (side_EF j Hj); congruence | exfalso; apply (side_FE j Hj); congruence].
  - intros i j Hi H.
    assert (S1 : V h C (nx c) = W) by (rewrite V_no, vC1; auto using nCA, nCB; rewrite vC1; apply not_eq_sym, ZW).
    assert (S2 : V h C (pv c) = X) by (apply V_O; auto using nCA, nCB).
    assert (S3 : V h D (nx d) = X) by (rewrite V_no, vD1; auto using nDA, nDB; rewrite vD1; apply XZ).
    assert (S4 : V h D (pv d) = W) by (rewrite V_no, vD2; auto using nDA, nDB; rewrite vD2; apply not_eq_sym, ZW).
    assert (S5 : V h E (nx g) = Y) by (rewrite V_no, vE1; auto using nEA, nEB; rewrite vE1; apply not_eq_sym, ZY).
    assert (S6 : V h E (pv g) = X) by (rewrite V_no, vE2; auto using nEA, nEB; rewrite vE2; apply XZ).
    assert (S7 : V h F (nx f) = X) by (apply V_O; auto using nFA, nFB).
    assert (S8 : V h F (pv f) = Y) by (rewrite V_no, vF2; auto using nFA, nFB; rewrite vF2; apply not_eq_sym, ZY).
    rewrite Hlen.
    destruct (L_cases t i Ht Hi HtA HtB) as [(Ei & Hi')|[(Ei & Hi')|[(Ei & Hi')|[(Ei & Hi')|(Ni1 & Ni2 & Hi')]]]];
      try (inversion Ei as [[Ei1 Ei2]]; rewrite Hi' in H; inversion H as [Ej]; rewrite <- Ej).
    + split; auto. exists d. unfold twin. rewrite S1, S2, S3, S4. auto 10.
    + split; auto. exists c. unfold twin. rewrite S1, S2, S3, S4. auto 10.
    + split; auto. exists f. unfold twin. rewrite S5, S6, S7, S8. auto 10.
    + split; auto. exists g. unfold twin. rewrite S5, S6, S7, S8. auto 10.
    + rewrite Hi' in H. destruct (Q3 i j Hi H) as (Hj & k' & T). split; auto. exists k'.
      assert (HjA : j <> A) by congruence. assert (HjB : j <> B) by congruence.
      pose proof T as (_ & Hk' & _ & Lj & V1 & V2).
      pose proof (OT (t, pv i) (j, nx k') ltac:(split; cbn; auto) (twin_turn _ _ _ _ _ T)) as O1.
      pose proof (OT (j, pv k') (t, nx i) ltac:(split; cbn; auto) (twin_turn _ _ _ _ _ (twin_sym _ _ _ _ _ T))) as O2.
      unfold twin. split; [auto|]. split; [auto|]. split; [congruence|]. split; [rewrite HL; auto; congruence|].
      rewrite !HV by auto. split.
      * destruct (Odec (t, nx i)), (Odec (j, pv k')); tauto.
      * destruct (Odec (t, pv i)), (Odec (j, nx k')); tauto.
Qed.
End Merge.
