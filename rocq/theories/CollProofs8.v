(** Edge collapse: a manifold stays a manifold. *)
From Coq Require Import List Arith Lia Bool Relations.
Import ListNotations.
From Verif Require Import Imp DtriModel DtriSpec CollModel CollSpec DtriProofs1 DtriProofs2 DtriProofs4 CollProofs1 CollProofs2 CollProofs3 CollProofs4 CollProofs5 CollProofs6 CollProofs7.

Section Keep.
Variables (m fm : list dtri) (A e B k : nat) (o : nat -> nat).
Hypothesis Hm : tri_ok m.
Hypothesis Hf : tri_ok fm.
Hypothesis HA : A < length m.
Hypothesis TB : twin m A e B k.
Hypothesis Hs : simple_edges m.
Hypothesis Wh : forall t i, t < length m -> i < 3 -> whole_fan m t i.
Hypothesis Lk : link_ok m A e B k.
Hypothesis Mg : merged m fm A e B k o.
Let X := V m A (nx e). Let Z := V m A (pv e).
Let He : e < 3 := he m A e B k TB.
Let Hk : k < 3 := hk m A e B k TB.
Let HBl : B < length m := HB m A e B k Hm HA TB.
Let Honce : edge_once m A e B := simple_once m A e B k Hm Hs HA TB.

Lemma Vf : forall s i, s < length fm -> i < 3 ->
  (V m (o s) i = Z /\ V fm s i = X) \/ (V m (o s) i <> Z /\ V fm s i = V m (o s) i).
Proof.
  intros s i Hsl Hi. destruct Mg as (_ & M1 & _ & _ & M4 & M5 & _). destruct (M1 s Hsl) as (O1 & _).
  destruct (Nat.eq_dec (V m (o s) i) Z) as [E|E].
  - left. split; auto. apply M4; auto. apply (closed_around m Hm); [split; cbn; auto|split; cbn; auto|apply Lk|]. apply Wh; auto.
  - right. split; auto. apply M5; auto. intros H. apply E.
    destruct (around_vc m Hm (A, pv e) (o s, i) ltac:(split; cbn; auto) H) as (_ & Q). exact Q.
Qed.

Lemma no_Z : forall s i, s < length fm -> i < 3 -> V fm s i <> Z.
Proof.
  intros s i Hsl Hi. destruct (Vf s i Hsl Hi) as [(_ & ->)|(H & ->)]; auto. apply (XZ m A e B k Hm HA TB).
Qed.

Lemma not_XZ : forall t i j, t < length m -> t <> A -> t <> B -> i < 3 -> j < 3 -> V m t i = X -> V m t j = Z -> False.
Proof. intros t i j Ht N1 N2 Hi Hj E1 E2. destruct (Honce t Ht) as [H|H]; auto; [exists i; auto|exists j; auto]. Qed.

Lemma dirA : forall t i, t < length m -> i < 3 -> V m t (nx i) = Z -> V m t (pv i) = V m A e -> t = A.
Proof. intros t i Ht Hi E1 E2. destruct (Hs t i A (nx e)) as (U & _); auto. rewrite nx_nx; auto. rewrite pv_nx; auto. Qed.
Lemma dirA' : forall t i, t < length m -> i < 3 -> V m t (nx i) = V m A e -> V m t (pv i) = X -> t = A.
Proof. intros t i Ht Hi E1 E2. destruct (Hs t i A (pv e)) as (U & _); auto. rewrite nx_pv; auto. rewrite pv_pv; auto. Qed.
Lemma dirB : forall t i, t < length m -> i < 3 -> V m t (nx i) = X -> V m t (pv i) = V m B k -> t = B.
Proof.
  intros t i Ht Hi E1 E2. destruct (Hs t i B (nx k)) as (U & _); auto.
  - rewrite nx_nx by auto. rewrite (vB2 m A e B k TB). auto.
  - rewrite pv_nx by auto. auto.
Qed.
Lemma dirB' : forall t i, t < length m -> i < 3 -> V m t (nx i) = V m B k -> V m t (pv i) = Z -> t = B.
Proof.
  intros t i Ht Hi E1 E2. destruct (Hs t i B (pv k)) as (U & _); auto.
  - rewrite nx_pv by auto. auto.
  - rewrite pv_pv by auto. rewrite (vB1 m A e B k TB). auto.
Qed.

(** the far ends of two edges that come together *)
Lemma both_ends : forall t i t' i' q, t < length m -> t' < length m -> i < 3 -> i' < 3 -> q <> X -> q <> Z ->
  corner_of m t q -> corner_of m t' q -> V m t i = X -> V m t' i' = Z -> q = V m A e \/ q = V m B k.
Proof.
  intros t i t' i' q Ht Ht' Hi Hi' N1 N2 C1 C2 E1 E2. destruct Lk as (_ & _ & Cn & _). apply Cn.
  - split; auto. exists t. split; auto. split; auto. exists i; auto.
  - split; auto. exists t'. split; auto. split; auto. exists i'; auto.
Qed.

Lemma keep_simple : simple_edges fm.
Proof.
  intros s i s' i' H1 H2 Hi Hi' E1 E2. destruct Mg as (_ & M1 & _ & M3 & _).
  destruct (M1 s H1) as (O1 & O2 & O3). destruct (M1 s' H2) as (O1' & O2' & O3').
  assert (Fin : V m (o s) (nx i) = V m (o s') (nx i') -> V m (o s) (pv i) = V m (o s') (pv i') -> s = s' /\ i = i').
  { intros U1 U2. destruct (Hs _ _ _ _ O1 O1' Hi Hi' U1 U2) as (U & U'). split; auto. }
  assert (Cn : forall t j, j < 3 -> corner_of m t (V m t j)) by (intros t j Hj; exists j; auto).
  assert (NX : X <> Z) by apply (XZ m A e B k Hm HA TB).
  assert (Dd : forall t j, t < length m -> j < 3 -> V m t (nx j) <> V m t (pv j)).
  { intros t j Ht Hj U. destruct (Hm t Ht) as (Q & _). apply Q in U; auto. apply (nx_ne_pv j); auto. }
  pose proof (Dd (o s) i O1 Hi) as D1. pose proof (Dd (o s') i' O1' Hi') as D2.
  destruct (Vf s (nx i) H1 ltac:(auto)) as [(a1 & a2)|(a1 & a2)];
  destruct (Vf s' (nx i') H2 ltac:(auto)) as [(b1 & b2)|(b1 & b2)];
  destruct (Vf s (pv i) H1 ltac:(auto)) as [(c1 & c2)|(c1 & c2)];
  destruct (Vf s' (pv i') H2 ltac:(auto)) as [(d1 & d2)|(d1 & d2)]; try (apply Fin; congruence); exfalso; try congruence;
  try (apply (not_XZ (o s) (pv i) (nx i)); solve [auto; congruence]);
  try (apply (not_XZ (o s') (pv i') (nx i')); solve [auto; congruence]);
  try (apply (not_XZ (o s) (nx i) (pv i)); solve [auto; congruence]);
  try (apply (not_XZ (o s') (nx i') (pv i')); solve [auto; congruence]).
  - (* Z -> b and X -> b *)
    assert (U : V m (o s') (nx i') = X) by congruence. assert (U' : V m (o s) (pv i) = V m (o s') (pv i')) by congruence.
    destruct (both_ends (o s') (nx i') (o s) (nx i) (V m (o s) (pv i))) as [R|R]; auto; try congruence.
    + rewrite U'. auto.
    + apply O2. apply (dirA (o s) i); auto.
    + apply O3'. apply (dirB (o s') i'); auto. congruence.
  - assert (U : V m (o s) (nx i) = X) by congruence. assert (U' : V m (o s) (pv i) = V m (o s') (pv i')) by congruence.
    destruct (both_ends (o s) (nx i) (o s') (nx i') (V m (o s') (pv i'))) as [R|R]; auto; try congruence.
    + rewrite <- U'. auto.
    + apply O2'. apply (dirA (o s') i'); auto.
    + apply O3. apply (dirB (o s) i); auto. congruence.
  - assert (U : V m (o s') (pv i') = X) by congruence. assert (U' : V m (o s) (nx i) = V m (o s') (nx i')) by congruence.
    destruct (both_ends (o s') (pv i') (o s) (pv i) (V m (o s) (nx i))) as [R|R]; auto; try congruence.
    + rewrite U'. auto.
    + apply O2'. apply (dirA' (o s') i'); auto. congruence.
    + apply O3. apply (dirB' (o s) i); auto.
  - assert (U : V m (o s) (pv i) = X) by congruence. assert (U' : V m (o s) (nx i) = V m (o s') (nx i')) by congruence.
    destruct (both_ends (o s) (pv i) (o s') (pv i') (V m (o s') (nx i'))) as [R|R]; auto; try congruence.
    + rewrite <- U'. auto.
    + apply O2. apply (dirA' (o s) i); auto. congruence.
    + apply O3'. apply (dirB' (o s') i'); auto.
Qed.

(** turns in the collapsed mesh *)
Lemma link_turn : forall s i s' j, s < length fm -> s' < length fm -> i < 3 -> j < 3 -> L fm s (nx i) = Some s' -> L fm s' j = Some s ->
  turn fm (s, i) (s', nx j).
Proof.
  intros s i s' j H1 H2 Hi Hj E1 E2. destruct (L_twin fm s (nx i) s' Hf H1 ltac:(auto) E1) as (q & T).
  assert (q = j). { apply (two_links fm s' q j s); auto; apply T. } subst q. exists j. auto.
Qed.
Lemma turn_keep : forall s i s' j, s < length fm -> s' < length fm -> i < 3 -> turn m (o s, i) (o s', j) -> turn fm (s, i) (s', j).
Proof.
  intros s i s' j H1 H2 Hi (q & T & E). cbn [fst snd] in *. subst j. pose proof T as (_ & Hq & L1 & L2 & _).
  destruct Mg as (_ & _ & _ & _ & _ & _ & _ & M7 & _). apply link_turn; auto.
Qed.

Variables (C c D d E g F f : nat) (l l' : list (nat * nat)).
Hypothesis TC : twin m A (nx e) C c.
Hypothesis TD : twin m A (pv e) D d.
Hypothesis TE : twin m B (nx k) E g.
Hypothesis TF : twin m B (pv k) F f.
Hypothesis FZ : cfan m A e B k C c F f l.
Hypothesis FX : cfan m B k A e E g D d l'.

Let hcL : c < 3 := hc m A e C c TC.
Let hdL : d < 3 := hd' m A e D d TD.
Let hgL : g < 3 := hg m B k E g TE.
Let hfL : f < 3 := hf m B k F f TF.

Lemma glue_t : forall s s', s < length fm -> s' < length fm -> o s = C -> o s' = D ->
  turn fm (s, pv c) (s', nx d) /\ turn fm (s', pv d) (s, nx c).
Proof.
  intros s s' H1 H2 E1 E2. destruct Mg as (_ & _ & _ & _ & _ & _ & _ & _ & M8 & _).
  destruct (M8 s c s' d H1 H2) as (L1 & L2); [rewrite E1; auto|rewrite E2; auto|].
  split; apply link_turn; auto; rewrite nx_pv; auto.
Qed.
Lemma glue_u : forall s s', s < length fm -> s' < length fm -> o s = E -> o s' = F ->
  turn fm (s, pv g) (s', nx f) /\ turn fm (s', pv f) (s, nx g).
Proof.
  intros s s' H1 H2 E1 E2. destruct Mg as (_ & _ & _ & _ & _ & _ & _ & _ & _ & M9).
  destruct (M9 s g s' f H1 H2) as (L1 & L2); [rewrite E1; auto|rewrite E2; auto|].
  split; apply link_turn; auto; rewrite nx_pv; auto.
Qed.

Lemma pre : forall x, x < length m -> x <> A -> x <> B -> exists s, s < length fm /\ o s = x.
Proof. apply Mg. Qed.

(** away from the edge *)
Lemma keep_away : forall x y, around m x y -> vc m x -> P m x <> X -> P m x <> Z -> forall s', s' < length fm -> o s' = fst y ->
  (forall s, s < length fm -> o s = fst x -> around fm (s, snd x) (s', snd y)) /\
  (x = (A, e) -> forall s, s < length fm -> o s = C -> around fm (s, nx c) (s', snd y)) /\
  (x = (B, k) -> forall s, s < length fm -> o s = E -> around fm (s, nx g) (s', snd y)).
Proof.
  intros x y H. apply clos_rt_rt1n in H. destruct Mg as (_ & M1 & _ & M3 & _).
  induction H as [x|x x1 y T H IH]; intros Vx NX NZ s' Hs' Es'.
  - destruct (M1 s' Hs') as (_ & O2 & O3). split; [|split].
    + intros s H1 E1. assert (s = s') by (apply M3; auto; congruence). subst s. apply rt_refl.
    + intros ->. cbn in Es'. congruence.
    + intros ->. cbn in Es'. congruence.
  - pose proof (turn_vc m Hm x x1 Vx T) as V1. pose proof (turn_P m x x1 Vx T) as P1. rewrite <- P1 in NX, NZ.
    destruct (IH V1 NX NZ s' Hs' Es') as (I1 & I2 & I3). clear IH. rewrite P1 in NX, NZ.
    pose proof (nCA m A e C c Hm HA TC) as n1. pose proof (nCB m A e B k C c Hm HA TB TC) as n2.
    pose proof (nEA m A e B k E g Hm HA TB TE) as n3. pose proof (nEB m A e B k E g Hm HA TB TE) as n4.
    pose proof (HC m A e C c Hm HA TC) as HCl. pose proof (HE m A e B k E g Hm HA TB TE) as HEl.
    split; [|split].
    + intros s H1 E1. destruct (M1 s H1) as (_ & O2 & O3).
      destruct x as (a, i), x1 as (b, j). cbn [fst snd] in *. destruct Vx as (Va & Vi), V1 as (Vb & Vj). cbn [fst snd] in *.
      destruct (Nat.eq_dec b A) as [->|NA].
      { assert (Ej : j = e).
        { unfold P in P1, NX, NZ. cbn [fst snd] in *. destruct (ix3 e j He Vj) as [-> | [-> | ->]]; auto; exfalso; [apply NX|apply NZ]; rewrite <- P1; reflexivity. }
        subst j.
        assert (Ed : (a, i) = (D, pv d)).
        { apply (turn_inj m Hm (a, i) (D, pv d) (A, e)); auto; try (split; cbn; auto; fail).
          - split; cbn; auto. apply (HD m A e D d Hm HA TD).
          - replace e with (nx (pv e)) by (apply nx_pv; auto). apply twin_turn. apply twin_sym; auto. }
        inversion Ed; subst a i. destruct (pre C HCl n1 n2) as (sC & HsC & EC).
        apply rt_trans with (sC, nx c); [apply rt_step; apply (glue_t sC s); auto|]. apply I2; auto. }
      destruct (Nat.eq_dec b B) as [->|NB].
      { assert (Ej : j = k).
        { unfold P in P1, NX, NZ. cbn [fst snd] in *. destruct (ix3 k j Hk Vj) as [-> | [-> | ->]]; auto; exfalso; [apply NZ|apply NX]; rewrite <- P1.
          apply (vB1 m A e B k TB). apply (vB2 m A e B k TB). }
        subst j.
        assert (Ed : (a, i) = (F, pv f)).
        { apply (turn_inj m Hm (a, i) (F, pv f) (B, k)); auto; try (split; cbn; auto; fail).
          - split; cbn; auto. apply (HF m A e B k F f Hm HA TB TF).
          - replace k with (nx (pv k)) by (apply nx_pv; auto). apply twin_turn. apply twin_sym; auto. }
        inversion Ed; subst a i. destruct (pre E HEl n3 n4) as (sE & HsE & EE).
        apply rt_trans with (sE, nx g); [apply rt_step; apply (glue_u sE s); auto|]. apply I3; auto. }
      destruct (pre b Vb NA NB) as (sb & Hsb & Eb). apply rt_trans with (sb, j); [|apply I1; auto].
      apply rt_step. apply turn_keep; auto. rewrite E1, Eb. auto.
    + intros -> s H1 E1.
      assert (Ex : x1 = (C, nx c)).
      { apply (turn_fun m Hm (A, e)); auto. replace e with (pv (nx e)) by (apply pv_nx; auto). apply twin_turn; auto. }
      subst x1. apply I1; auto.
    + intros -> s H1 E1.
      assert (Ex : x1 = (E, nx g)).
      { apply (turn_fun m Hm (B, k)); auto. replace k with (pv (nx k)) by (apply pv_nx; auto). apply twin_turn; auto. }
      subst x1. apply I1; auto.
Qed.

(** the fan of the merged point *)
Lemma path_keep : forall p x, path m x p -> (forall y, In y (x :: p) -> vc m y /\ fst y <> A /\ fst y <> B) ->
  forall s, s < length fm -> o s = fst x ->
  (forall y s', In y (x :: p) -> s' < length fm -> o s' = fst y ->
     around fm (s, snd x) (s', snd y) /\
     (forall sl, sl < length fm -> o sl = fst (lastc x p) -> around fm (s', snd y) (sl, snd (lastc x p)))).
Proof.
  destruct Mg as (_ & _ & _ & M3 & _).
  induction p as [|a p IH]; intros x Hp Hv s H1 E1 y s' Hy H2 E2.
  - destruct Hy as [<-|[]]. assert (s' = s) by (apply M3; auto; congruence). subst s'. split; [apply rt_refl|].
    intros sl H3 E3. unfold lastc in *. cbn [last] in *. assert (sl = s) by (apply M3; auto; congruence). subst. apply rt_refl.
  - destruct Hp as (T & Hp). destruct (Hv a) as (Va & Na & Na'); [right; left; auto|].
    destruct (Hv x) as (Vx & _); [left; auto|].
    destruct (pre (fst a) (proj1 Va) Na Na') as (sa & Hsa & Ea).
    assert (T' : turn fm (s, snd x) (sa, snd a)).
    { apply turn_keep; auto; [apply Vx|]. rewrite E1, Ea. destruct x, a; auto. }
    assert (IH' := IH a Hp (fun z Hz => Hv z (or_intror Hz)) sa Hsa Ea). rewrite lastc_cons.
    destruct Hy as [<-|Hy].
    + assert (s' = s) by (apply M3; auto; congruence). subst s'. split; [apply rt_refl|].
      intros sl H3 E3. apply rt_trans with (sa, snd a); [apply rt_step; auto|].
      apply (IH' a sa (or_introl eq_refl) Hsa Ea); auto.
    + destruct (IH' y s' Hy H2 E2) as (I1 & I2). split; [|auto]. apply rt_trans with (sa, snd a); [apply rt_step; auto|auto].
Qed.

Lemma fan_members : forall A e B k C c F f l, A < length m -> twin m A e B k -> cfan m A e B k C c F f l ->
  forall y, In y ((F, nx f) :: l) <-> vc m y /\ P m y = V m A (pv e) /\ fst y <> A /\ fst y <> B.
Proof.
  clear - Hm Wh. intros A e B k C c F f l HA TB (P1 & P2 & P3 & P4 & P5) y.
  change ((F, nx f) :: l ++ [(A, pv e); (B, nx k)]) with (((F, nx f) :: l) ++ [(A, pv e); (B, nx k)]) in *.
  pose proof (he m A e B k TB) as He. pose proof (hk m A e B k TB) as Hk.
  assert (VA : vc m (A, pv e)) by (split; cbn; auto).
  assert (VB : vc m (B, nx k)) by (split; cbn; auto; apply (HB m A e B k Hm HA TB)).
  split.
  - intros Hy. assert (Ay : around m (A, pv e) y) by (apply P4; apply in_app_iff; auto).
    destruct (around_vc m Hm _ _ VA Ay) as (Vy & Py). split; auto. split; [exact Py|].
    apply in_split in Hy. destruct Hy as (a & b & Ea). rewrite Ea in P3. rewrite <- app_assoc in P3. cbn [app] in P3. apply NoDup_remove_2 in P3.
    split; intros U; apply P3.
    + replace y with (A, pv e). rewrite !in_app_iff; cbn; tauto. symmetry. apply (corner_eq m Hm); auto.
    + replace y with (B, nx k). rewrite !in_app_iff; cbn; tauto. symmetry. apply (corner_eq m Hm); auto. rewrite Py. unfold P. cbn. symmetry.
      apply (vB1 m A e B k TB).
  - intros (Vy & Py & N1 & N2). destruct y as (s, j). assert (Ay : around m (A, pv e) (s, j)) by (apply (closed_around m Hm); auto; apply Wh; auto; apply Vy).
    apply P4, in_app_iff in Ay. destruct Ay as [|[U|[U|[]]]]; auto; inversion U; subst; cbn in *; congruence.
Qed.

Lemma keep_whole : forall t i, t < length fm -> i < 3 -> whole_fan fm t i.
Proof.
  intros t i Ht Hi s j Hsl Hj Ev. pose proof Mg as (_ & M1 & _ & M3 & _).
  destruct (M1 t Ht) as (O1 & O2 & O3). destruct (M1 s Hsl) as (O1' & O2' & O3').
  assert (NX : X <> Z) by apply (XZ m A e B k Hm HA TB).
  destruct (Nat.eq_dec (V fm t i) X) as [EX|NEX].
  - (* the merged point *)
    pose proof (HC m A e C c Hm HA TC) as HCl. pose proof (HD m A e D d Hm HA TD) as HDl.
    pose proof (HE m A e B k E g Hm HA TB TE) as HEl. pose proof (HF m A e B k F f Hm HA TB TF) as HFl.
    pose proof (fan_members A e B k C c F f l HA TB FZ) as MZ.
    pose proof (fan_members B k A e E g D d l' HBl (twin_sym _ _ _ _ _ TB) FX) as MX.
    rewrite (vB2 m A e B k TB) in MX.
    destruct (pre C HCl (nCA m A e C c Hm HA TC) (nCB m A e B k C c Hm HA TB TC)) as (sC & LC & EC).
    destruct (pre D HDl (nDA m A e D d Hm HA TD) (nDB m A e B k D d Hm HA TB TD)) as (sD & LD & ED).
    destruct (pre E HEl (nEA m A e B k E g Hm HA TB TE) (nEB m A e B k E g Hm HA TB TE)) as (sE & LE & EE).
    destruct (pre F HFl (CollProofs4.nFA m A e B k F f Hm HA TB TF) (CollProofs4.nFB m A e B k F f Hm HA TB TF)) as (sF & LF & EF).
    pose proof FZ as (PZ & LZ & _). pose proof FX as (PX & LX & _).
    assert (KZ := path_keep l (F, nx f) PZ (fun y Hy => let H := proj1 (MZ y) Hy in conj (proj1 H) (proj2 (proj2 H))) sF LF EF).
    assert (KX := path_keep l' (D, nx d) PX (fun y Hy => let H := proj1 (MX y) Hy in
      conj (proj1 H) (conj (proj2 (proj2 (proj2 H))) (proj1 (proj2 (proj2 H))))) sD LD ED).
    rewrite LZ in KZ. rewrite LX in KX. cbn [fst snd] in *.
    assert (S1 : around fm (sC, pv c) (sD, nx d)) by (apply rt_step; apply (glue_t sC sD); auto).
    assert (S2 : around fm (sE, pv g) (sF, nx f)) by (apply rt_step; apply (glue_u sE sF); auto).
    assert (Hub : forall t i, t < length fm -> i < 3 -> V fm t i = X -> around fm (t, i) (sF, nx f) /\ around fm (sF, nx f) (t, i)).
    { clear t i s j Ht Hi Hsl Hj Ev O1 O2 O3 O1' O2' O3' EX. intros t i Ht Hi EX. destruct (M1 t Ht) as (O1 & O2 & O3).
      assert (ZF : around fm (sF, nx f) (sC, pv c)).
      { apply (KZ (F, nx f) sF); auto. left; auto. }
      assert (XF : around fm (sD, nx d) (sE, pv g)).
      { apply (KX (D, nx d) sD); auto. left; auto. }
      destruct (Vf t i Ht Hi) as [(U & _)|(U & U')].
      - assert (I : In (o t, i) ((F, nx f) :: l)) by (apply MZ; split; [split; auto|auto]).
        destruct (KZ (o t, i) t I Ht eq_refl) as (K1 & K2). cbn [fst snd] in *. split; auto.
        apply rt_trans with (sC, pv c); [apply K2; auto|]. apply rt_trans with (sD, nx d); auto.
        apply rt_trans with (sE, pv g); auto.
      - assert (I : In (o t, i) ((D, nx d) :: l')).
        { apply MX. split; [split; auto|]. split; [|auto]. unfold P. cbn [fst snd]. rewrite <- U'. exact EX. }
        destruct (KX (o t, i) t I Ht eq_refl) as (K1 & K2). cbn [fst snd] in *. split.
        + apply rt_trans with (sE, pv g); [apply K2; auto|auto].
        + apply rt_trans with (sC, pv c); auto. apply rt_trans with (sD, nx d); auto. }
    left. apply rt_trans with (sF, nx f); apply Hub; auto. congruence.
  - assert (Q : forall t i, t < length fm -> i < 3 -> V fm t i <> X -> V m (o t) i = V fm t i /\ V m (o t) i <> X /\ V m (o t) i <> Z).
    { intros t' i' H1 H2 H3. destruct (Vf t' i' H1 H2) as [(U & U')|(U & U')]; [congruence|]. split; auto. split; [rewrite <- U'; auto|auto]. }
    destruct (Q t i Ht Hi NEX) as (q1 & q2 & q3). destruct (Q s j Hsl Hj ltac:(congruence)) as (r1 & r2 & r3).
    destruct (Wh (o t) i O1 Hi (o s) j O1' Hj ltac:(congruence)) as [H|H]; [left|right].
    + destruct (keep_away (o t, i) (o s, j) H) with (s' := s) as (K & _); auto. split; auto.
    + destruct (keep_away (o s, j) (o t, i) H) with (s' := t) as (K & _); auto. split; auto.
Qed.
End Keep.
