(** Edge collapse: execution. *)
From Coq Require Import List Arith Lia Bool Relations.
Import ListNotations.
From Verif Require Import Imp DtriModel DtriSpec CollModel CollSpec DtriProofs1 DtriProofs2 DtriProofs4 CollProofs1 CollProofs2 CollProofs3 CollProofs4.

Ltac bindE H := repeat match type of H with bind ?e _ = Some _ => let E := fresh "Eb" in destruct e eqn:E; cbn [bind] in H; [|discriminate] end.

(** a deletion changes the link of a point only to the freed place *)
Lemma vset_nth_or : forall (po : list dpnt) i p po' q x, vset po i p = Some po' -> pe p = Some x ->
  nth q po' (mkP None 0) = nth q po (mkP None 0) \/ pe (nth q po' (mkP None 0)) = Some x.
Proof.
  intros po i p po' q x H Hp. destruct (lt_dec i (length po)) as [Hi|Hi].
  - rewrite vset_upd in H by auto. inversion H. rewrite nth_upd by auto. destruct (Nat.eq_dec i q) as [E|E]; auto.
  - exfalso. assert (wp (vset po i p) (fun _ => True)) as K by (rewrite H; exact I).
    clear H. revert i Hi K. induction po as [|a po IH]; intros i Hi K; destruct i; cbn in *; try contradiction; try lia.
    apply (IH i); [lia|]. destruct (vset po i p); cbn in *; auto.
Qed.
Lemma DeleteTri_pe : forall x po m po' f, DeleteTri x po m = Some (po', f) ->
  forall q, nth q po' (mkP None 0) = nth q po (mkP None 0) \/ pe (nth q po' (mkP None 0)) = Some x.
Proof.
  intros x po m po' f H q. unfold DeleteTri in H. destruct (length m <=? x); [inversion H; auto|].
  bindE H. destruct (x =? length m - 1); [inversion H; auto|]. bindE H.
  inversion H; subst; clear H.
  match goal with E : forn 0 3 _ po = Some po' |- _ => unfold forn in E; cbn [Nat.sub forn_] in E; bindE E; rename E into H end.
  assert (Tr : forall a b c : list dpnt,
     (nth q b (mkP None 0) = nth q a (mkP None 0) \/ pe (nth q b (mkP None 0)) = Some x) ->
     (nth q c (mkP None 0) = nth q b (mkP None 0) \/ pe (nth q c (mkP None 0)) = Some x) ->
     (nth q c (mkP None 0) = nth q a (mkP None 0) \/ pe (nth q c (mkP None 0)) = Some x)).
  { intros a b c' [H1|H1] [H2|H2]; auto; [left; congruence|right; congruence]. }
  inversion H; subst; clear H.
  repeat match goal with E : bind ?e _ = Some _ |- _ => bindE E end.
  repeat match goal with E : vset _ _ _ = Some _ |- _ => pose proof (fun H => vset_nth_or _ _ _ _ q x E H); clear E end.
  cbn [pe] in *. eauto 10.
Qed.

Lemma path_transfer : forall m m1 l c, (forall x y, In x (c :: l) -> In y (c :: l) -> turn m x y -> turn m1 x y) ->
  path m c l -> path m1 c l.
Proof.
  intros m m1. induction l as [|a l IH]; intros c H Hp; [exact I|]. destruct Hp as (T & Hp). split.
  - apply H; [left; auto|right; left; auto|auto].
  - apply IH; auto. intros x y Hx Hy. apply H; right; auto.
Qed.

(** two isolated triangles taken out *)
Lemma delete2 : forall po m x y, consistent po m -> y < x -> x < length m ->
  (forall i, i < 3 -> L m x i = None) -> (forall i, i < 3 -> L m y i = None) ->
  (forall p, p < length po -> pe (nth p po (mkP None 0)) <> Some x /\ pe (nth p po (mkP None 0)) <> Some y) ->
  wp ('(po, m) <- DeleteTri x po m ;; '(po, m) <- DeleteTri y po m ;; Some (true, (po, m))) (fun r => let '(b, (po', f)) := r in
    b = true /\ consistent po' f /\ length po' = length po /\ length f + 2 = length m /\
    (forall q, q < length po -> has_link po q -> has_link po' q) /\
    exists o, (forall s, s < length f -> o s < length m /\ o s <> x /\ o s <> y) /\
      (forall z, z < length m -> z <> x -> z <> y -> exists s, s < length f /\ o s = z) /\
      (forall s s', s < length f -> s' < length f -> o s = o s' -> s = s') /\
      (forall s i, s < length f -> V f s i = V m (o s) i) /\
      (forall s i, s < length f -> i < 3 -> (L f s i = None <-> L m (o s) i = None)) /\
      (forall s i j, s < length f -> i < 3 -> j < length f -> L m (o s) i = Some (o j) -> L f s i = Some j)).
Proof.
  intros po m x y HC Hyx Hx Lx Ly Hp.
  destruct (wp_ex _ _ _ (DeleteTri_lem po m x HC Hx Lx (fun p H => proj1 (Hp p H)))) as ((po1 & m1) & E1 & C1 & P1 & S1 & V1 & L1 & K1).
  rewrite E1. cbn [bind].
  assert (Hy1 : y < length m1) by lia.
  assert (Ly1 : forall i, i < 3 -> L m1 y i = None).
  { intros i Hi. rewrite L1 by (auto; lia). destruct Nat.eq_dec; [lia|]. rewrite Ly by auto. reflexivity. }
  assert (Hp1 : forall p, p < length po1 -> pe (nth p po1 (mkP None 0)) <> Some y).
  { intros p Hpl. destruct (DeleteTri_pe _ _ _ _ _ E1 p) as [H|H]; rewrite H; [apply Hp; lia|]. intros H'. inversion H'. lia. }
  destruct (wp_ex _ _ _ (DeleteTri_lem po1 m1 y C1 Hy1 Ly1 Hp1)) as ((po2 & f) & E2 & C2 & P2 & S2 & V2 & L2 & K2).
  rewrite E2. cbn [bind]. apply wp_some. split; [auto|]. split; [auto|]. split; [congruence|]. split; [lia|].
  split. { intros q Hq Hh. apply K2; [lia|]. apply K1; auto. }
  exists (fun s => if Nat.eq_dec (if Nat.eq_dec s y then length m1 - 1 else s) x then length m - 1 else (if Nat.eq_dec s y then length m1 - 1 else s)).
  rewrite S2, S1 in *.
  split. { intros s Hs. repeat destruct Nat.eq_dec; lia. }
  split. { intros z Hz Hzx Hzy.
    exists (if Nat.eq_dec (if Nat.eq_dec z (length m - 1) then x else z) (length m - 1 - 1) then y else (if Nat.eq_dec z (length m - 1) then x else z)).
    split; repeat destruct Nat.eq_dec; lia. }
  split. { intros s s' Hs Hs'. repeat destruct Nat.eq_dec; lia. }
  assert (Hs1 : forall s, s < length m - 1 - 1 -> (if Nat.eq_dec s y then length m - 1 - 1 else s) < length m - 1).
  { intros s Hs. destruct Nat.eq_dec; lia. }
  split. { intros s i Hs. rewrite V2 by auto. rewrite V1 by auto. reflexivity. }
  split. { intros s i Hs Hi. rewrite L2 by auto. rewrite L1 by auto. destruct (L m _ i); cbn; split; congruence. }
  intros s i j Hs Hi Hj H. rewrite L2 by auto. rewrite L1 by auto. rewrite H. cbn [option_map]. f_equal. repeat destruct Nat.eq_dec; lia.
Qed.

Section Run.
Variables (po : list dpnt) (m : list dtri) (A e B k C c D d E g F f : nat).
Hypothesis HC0 : consistent po m.
Hypothesis HA : A < length m.
Hypothesis TB : twin m A e B k.
Hypothesis TC : twin m A (nx e) C c.
Hypothesis TD : twin m A (pv e) D d.
Hypothesis TE : twin m B (nx k) E g.
Hypothesis TF : twin m B (pv k) F f.
Hypothesis Honce : edge_once m A e B.
Let Hm : tri_ok m := proj1 HC0.
Let X := V m A (nx e). Let Z := V m A (pv e). Let W := V m A e. Let Y := V m B k.
Let zA := (A, pv e). Let zB := (B, nx k). Let zC := (C, pv c). Let zF := (F, nx f).
Hypothesis N1 : L m C (pv c) <> Some D.
Hypothesis N2 : L m E (pv g) <> Some F.
Hypothesis N3 : ~ (C = F /\ D = E).
Variable l : list (nat * nat).
Hypothesis Hpath : path m zF l.
Hypothesis Hlast : lastc zF l = zC.
Hypothesis Hnd : NoDup (zF :: l ++ [zA; zB]).
Hypothesis Har : forall x, around m zA x <-> In x (zF :: l ++ [zA; zB]).

Let HeL : e < 3 := he m A e B k TB.
Let HkL : k < 3 := hk m A e B k TB.
Let HcL : c < 3 := hc m A e C c TC.
Let HdL : d < 3 := hd' m A e D d TD.
Let HgL : g < 3 := hg m B k E g TE.
Let HfL : f < 3 := hf m B k F f TF.
Let HBl : B < length m := HB m A e B k Hm HA TB.
Let HCl : C < length m := HC m A e C c Hm HA TC.
Let HDl : D < length m := HD m A e D d Hm HA TD.
Let HEl : E < length m := HE m A e B k E g Hm HA TB TE.
Let HFl : F < length m := HF m A e B k F f Hm HA TB TF.

Definition fin := zF :: l.
Lemma fin_or : forall x, around m zA x <-> In x fin \/ x = zA \/ x = zB.
Proof.
  intros x. rewrite Har. unfold fin. cbn [In]. rewrite in_app_iff. cbn [In]. intuition auto.
Qed.
Lemma vA' : vc m zA. Proof. split; cbn; auto. Qed.
Lemma fin_vc : forall x, In x fin -> vc m x /\ P m x = Z.
Proof. intros x Hx. apply (around_vc m Hm zA x vA'). apply fin_or. auto. Qed.
Lemma fin_AB : forall x, In x fin -> fst x <> A /\ fst x <> B.
Proof.
  intros x Hx. destruct (fin_vc x Hx) as (Vx & Px).
  assert (Hx' : ~ In x [zA; zB]).
  { intros Hi. change (NoDup (fin ++ [zA; zB])) in Hnd.
    apply in_split in Hx. destruct Hx as (u & v & Eu). rewrite Eu in Hnd. rewrite <- app_assoc in Hnd. cbn in Hnd.
    apply NoDup_remove_2 in Hnd. apply Hnd. rewrite !in_app_iff. cbn in Hi. cbn. intuition auto. }
  split; intros H; apply Hx'.
  - left. symmetry. apply (corner_eq m Hm); auto. apply vA'.
  - right; left. symmetry. apply (corner_eq m Hm); auto; [split; cbn; auto|]. rewrite Px. unfold P, zB. cbn.
    symmetry. exact (vB1 m A e B k TB).
Qed.
Lemma fin_nodup : NoDup fin.
Proof. change (NoDup (fin ++ [zA; zB])) in Hnd. revert Hnd. generalize fin. induction l0 as [|a q IH]; intros H; [constructor|].
  cbn in H. inversion H as [|? ? H1 H2]; subst. constructor; auto. intros H3. apply H1. apply in_or_app. auto. Qed.
Lemma fin_D : forall x, In x fin -> fst x <> D.
Proof.
  intros x Hx H. destruct (fin_vc x Hx) as ((Vx & Vi) & Px). destruct (fin_AB x Hx) as (NA & NB).
  apply (not_both m A e B Honce (fst x) (nx d) (snd x)); auto. rewrite H. apply (vD1 m A e B k D d TB TD).
Qed.

Definition mid (h : list dtri) : Prop := length h = length m /\
  (forall t i, t < length m -> i < 3 -> V h t i = if in_dec cdec (t, i) fin then X else V m t i) /\
  (forall i, i < 3 -> L h A i = None) /\ (forall i, i < 3 -> L h B i = None) /\
  L h C c = Some D /\ L h D d = Some C /\ L h E g = Some F /\ L h F f = Some E /\
  (forall t i, t < length m -> i < 3 -> t <> A -> t <> B -> L m t i <> Some A -> L m t i <> Some B -> L h t i = L m t i).

Lemma fin_O : forall t i, t <> A -> t <> B -> (In (t, i) fin <-> around m zA (t, i)).
Proof.
  intros t i HtA HtB. rewrite fin_or. split; auto. intros [H|[H|H]]; auto; inversion H; tauto.
Qed.
Definition Odec : forall x, {around m zA x} + {~ around m zA x}.
Proof.
  intros x. destruct (in_dec cdec x (zF :: l ++ [zA; zB])) as [H|H]; [left|right]; rewrite Har; auto.
Qed.

Lemma O_turn : forall x y, vc m x -> turn m x y -> (around m zA x <-> around m zA y).
Proof.
  intros x y Vx T. split; intros H; [eapply around_next; eauto|].
  (* the predecessor of y in the closed fan is x *)
  pose proof (proj1 (Har y) H) as Hy.
  assert (Hfull : path m zF (l ++ [zA; zB])).
  { apply path_app. split; auto. rewrite Hlast. cbn. split; [|split; auto].
    - exact (tCA m A e B k C c TB TC).
    - exact (tAB m A e B k TB). }
  assert (Vf : vc m zF) by (split; cbn; auto).
  assert (G : exists x', around m zA x' /\ turn m x' y).
  { destruct Hy as [<-|Hy].
    - exists zB. split; [apply fin_or; auto|]. exact (tBF m A e B k F f TB TF).
    - destruct (path_pred m _ zF y Hfull Hy) as (x' & Hx' & T'). exists x'. split; auto. apply Har. auto. }
  destruct G as (x' & Hx' & T'). rewrite (turn_inj m Hm x x' y); auto. apply (around_vc m Hm zA x' vA' Hx').
Qed.

Lemma mid_tri_ok : forall h, mid h -> tri_ok h.
Proof.
  intros h (G0 & G1 & G2 & G3 & G4 & G5 & G6 & G7 & G8).
  apply (merge_tri_ok m A e B k C c D d E g F f Hm HA TB TC TD TE TF Honce N1 N2 N3 (around m zA) Odec) with (h := h); auto.
  - intros x Hx. apply (around_vc m Hm zA x vA' Hx).
  - apply O_turn.
  - apply fin_or. left. unfold fin. fold zC. rewrite <- Hlast. apply lastc_in.
  - apply fin_or. left. left. reflexivity.
  - intros t i Ht Hi HtA HtB. rewrite G1 by auto. destruct (in_dec cdec (t, i) fin) as [H|H], (Odec (t, i)) as [H'|H']; auto.
    + exfalso. apply H'. apply fin_O; auto.
    + exfalso. apply H. apply fin_O; auto.
  - intros i Hi. rewrite G1 by auto. destruct in_dec as [H|]; auto. exfalso. destruct (fin_AB _ H). auto.
  - intros i Hi. rewrite G1 by auto. destruct in_dec as [H|]; auto. exfalso. destruct (fin_AB _ H). auto.
Qed.

Definition pmid (p1 : list dpnt) : Prop := length p1 = length po /\
  forall q, q < length po -> nth q p1 (mkP None 0) =
    if Nat.eq_dec q Z then mkP None (pd (nth q po (mkP None 0))) else if Nat.eq_dec q X then mkP (Some D) (nx d)
    else if Nat.eq_dec q Y then mkP (Some E) (nx g) else if Nat.eq_dec q W then mkP (Some C) (nx c) else nth q po (mkP None 0).

Lemma pmid_ok : forall h p1, mid h -> pmid p1 -> pnt_ok p1 h.
Proof.
  intros h p1 Hh (Hpl & Hp). pose proof Hh as (G0 & G1 & _). pose proof HC0 as (_ & Q1 & Q2).
  assert (HXl : X < length po) by (apply Q1; auto).
  assert (NZ : forall t i, t < length m -> i < 3 -> V m t i <> Z -> V h t i = V m t i).
  { intros t i Ht Hi Hz. rewrite G1 by auto. destruct in_dec as [H|]; auto. exfalso. apply fin_vc in H. apply Hz. apply H. }
  split.
  - intros t i Ht Hi. rewrite G0 in Ht. rewrite Hpl, G1 by auto. destruct in_dec; auto.
  - rewrite Hpl, G0. intros p t Hpp. rewrite Hp by auto.
    destruct (Nat.eq_dec p Z) as [EZ|NZ']; [discriminate|].
    destruct (Nat.eq_dec p X) as [EX|NX].
    { cbn [pe pd]. intros H. injection H as Et; rewrite <- Et. split; auto. split; auto.
      pose proof (vD1 m A e B k D d TB TD) as HX. fold X in HX. rewrite NZ by (auto; congruence). congruence. }
    destruct (Nat.eq_dec p Y) as [EY|NY].
    { cbn [pe pd]. intros H. injection H as Et; rewrite <- Et. split; auto. split; auto.
      pose proof (vE1 m A e B k E g TB TE) as HX. fold Y in HX. rewrite NZ by (auto; congruence). congruence. }
    destruct (Nat.eq_dec p W) as [EW|NW].
    { cbn [pe pd]. intros H. injection H as Et; rewrite <- Et. split; auto. split; auto.
      pose proof (vC1 m A e B k C c TB TC) as HX. fold W in HX. rewrite NZ by (auto; congruence). congruence. }
    intros H. destruct (Q2 p t Hpp H) as (H1 & H2 & H3). split; auto. split; auto. rewrite NZ; auto. congruence.
Qed.

Lemma pmid_AB : forall p1, pmid p1 -> forall p, p < length po ->
  pe (nth p p1 (mkP None 0)) <> Some A /\ pe (nth p p1 (mkP None 0)) <> Some B.
Proof.
  intros p1 (Hpl & Hp) p Hpp. rewrite Hp by auto.
  pose proof (nDA m A e D d Hm HA TD). pose proof (nDB m A e B k D d Hm HA TB TD).
  pose proof (nEA m A e B k E g Hm HA TB TE). pose proof (nEB m A e B k E g Hm HA TB TE).
  pose proof (nCA m A e C c Hm HA TC). pose proof (nCB m A e B k C c Hm HA TB TC).
  repeat (destruct Nat.eq_dec; [cbn [pe]; split; congruence|]).
  pose proof HC0 as (_ & _ & Q2). split; intros H'; destruct (Q2 p _ Hpp H') as (R1 & R2 & R3).
  - destruct (ix3 e _ HeL R2) as [K|[K|K]]; rewrite K in R3; unfold X, Z, W in *; congruence.
  - destruct (ix3 k _ HkL R2) as [K|[K|K]]; rewrite K in R3.
    + unfold Y in *. congruence.
    + pose proof (vB1 m A e B k TB). unfold Z in *. congruence.
    + pose proof (vB2 m A e B k TB). unfold X in *. congruence.
Qed.
(** the four link statements *)
Definition glued (h : list dtri) : Prop := length h = length m /\
  (forall t i, V h t i = V m t i) /\
  L h C c = Some D /\ L h D d = Some C /\ L h E g = Some F /\ L h F f = Some E /\
  (forall t i, i < 3 -> (t, i) <> (C, c) -> (t, i) <> (D, d) -> (t, i) <> (E, g) -> (t, i) <> (F, f) -> L h t i = L m t i).
Lemma glue_all : wp (
  aTri <- coll_glue C c (Some D) D d m ;;
  aTri <- coll_glue D d (Some C) C c aTri ;;
  aTri <- coll_glue E g (Some F) F f aTri ;;
  coll_glue F f (Some E) E g aTri) glued.
Proof.
  assert (Q1 : (C, c) <> (D, d)) by (intros H; inversion H; apply (nCD m A e B k C c D d Hm HA TB TC TD); auto).
  assert (Q2 : (E, g) <> (F, f)) by (intros H; inversion H; apply (nEF m A e B k E g F f Hm HA TB TE TF); auto).
  pose proof (lC m A e C c TC) as K1. pose proof (lD m A e D d TD) as K2. pose proof (lE m B k E g TE) as K3. pose proof (lF m B k F f TF) as K4.
  pose proof (nAB m A e B k Hm HA TB) as NAB.
  assert (Q3 : forall t i t' i', L m t i = Some A -> L m t' i' = Some B -> (t, i) <> (t', i')) by (intros; congruence).
  apply wp_bind. eapply wp_mono; [apply glue_wp; auto|]. cbn beta. intros f1 (F1 & F2 & F3).
  apply wp_bind. eapply wp_mono; [apply glue_wp; auto; lia|]. cbn beta. intros f2 (G1 & G2 & G3).
  apply wp_bind. eapply wp_mono; [apply glue_wp; auto; lia|]. cbn beta. intros f3 (K1' & K2' & K3').
  eapply wp_mono; [apply glue_wp; auto; lia|]. cbn beta. intros f4 (J1 & J2 & J3).
  split; [congruence|]. split; [intros; rewrite J2, K2', G2, F2; auto|].
  assert (LL : forall t i, i < 3 -> L f4 t i = if cdec (E, g) (t, i) then Some F else if cdec (F, f) (t, i) then Some E
     else if cdec (C, c) (t, i) then Some D else if cdec (D, d) (t, i) then Some C else L m t i).
  { intros t i Hi. rewrite J3, K3', G3, F3 by auto. repeat destruct cdec; congruence. }
  repeat split; try (rewrite LL by auto).
  - pose proof (Q3 _ _ _ _ K1 K3). pose proof (Q3 _ _ _ _ K1 K4). repeat destruct cdec; congruence.
  - pose proof (Q3 _ _ _ _ K2 K3). pose proof (Q3 _ _ _ _ K2 K4). repeat destruct cdec; congruence.
  - repeat destruct cdec; congruence.
  - repeat destruct cdec; congruence.
  - intros t i Hi H1 H2 H3 H4. rewrite LL by auto. repeat destruct cdec; congruence.
Qed.

Lemma fan_glued : forall h, glued h -> coll_fan Z F (nx f) D h = Some fin.
Proof.
  intros h (G0 & G1 & G2 & G3 & G4 & G5 & G6). rewrite coll_fan_eq.
  assert (Vf : vc m zF) by (split; cbn; auto).
  assert (GP : forall x, P h x = P m x) by (intros; apply G1).
  assert (Gv : forall x, vc m x -> vc h x) by (intros x (H1 & H2); split; [rewrite G0; auto|auto]).
  pose proof (lC m A e C c TC) as K1. pose proof (lD m A e D d TD) as K2. pose proof (lE m B k E g TE) as K3. pose proof (lF m B k F f TF) as K4.
  assert (Hfin : NoDup (zF :: l)) by exact fin_nodup.
  pose proof (path_len m Hm l zF Vf Hpath Hfin) as Hlen.
  change (F, nx f) with zF.
  rewrite (fan_run h Z D l zF (S (length h)) []); [reflexivity|apply Gv; auto| | | | | | |].
  - rewrite GP. apply fin_vc. left; auto.
  - apply (path_transfer m); auto. intros x y Hx Hy (q & T & Eq). exists q. split; auto.
    destruct (fin_AB x Hx) as (XA & XB). destruct (fin_AB y Hy) as (YA & YB).
    pose proof T as (T1 & T2 & T3 & T4 & T5 & T6). unfold twin. rewrite !G1. repeat split; auto.
    + rewrite G6; auto; intros H; inversion H as [[H1 H2]]; rewrite H1, H2 in T3; congruence.
    + rewrite G6; auto; intros H; inversion H as [[H1 H2]]; rewrite H1, H2 in T4; congruence.
  - intros x Hx. apply fin_D. right; auto.
  - intros x Hx. rewrite GP. destruct (fin_vc x (or_intror Hx)) as (H1 & H2). auto.
  - intros x Hx a b Ha Hb. rewrite !G1. destruct (fin_vc x Hx) as ((H1 & _) & _). apply (Hm _ H1); auto.
  - rewrite Hlast. unfold zC. cbn [fst snd]. rewrite nx_pv by auto. exact G2.
  - lia.
Qed.

Lemma tail_mid : forall h, glued h -> wp (
  aTri <- coll_rename Z X fin h ;; aTri <- coll_isolate A aTri ;; coll_isolate B aTri) mid.
Proof.
  intros h (G0 & G1 & G2 & G3 & G4 & G5 & G6).
  apply wp_bind. eapply wp_mono.
  { apply rename_ok; [|exact fin_nodup]. intros x Hx. destruct (fin_vc x Hx) as ((H1 & H1') & H2).
    split; [split; [rewrite G0; auto|auto]|]. unfold P. rewrite G1. exact H2. }
  cbn beta. intros f1 (F1 & F2 & F3). rewrite G0 in F1, F2, F3.
  apply wp_bind. eapply wp_mono; [apply isolate_wp; lia|]. cbn beta. intros f2 (J1 & J2 & J3).
  eapply wp_mono; [apply isolate_wp; lia|]. cbn beta. intros f3 (K1 & K2 & K3).
  assert (LL : forall t i, t < length m -> i < 3 -> t <> A -> t <> B -> L f3 t i = L h t i).
  { intros t i Ht Hi HtA HtB. rewrite K3, J3 by auto. repeat destruct Nat.eq_dec; try congruence. apply F3; auto. }
  split; [congruence|]. split. { intros t i Ht Hi. rewrite K2, J2, F2 by auto. rewrite G1. reflexivity. }
  split. { intros i Hi. rewrite K3, J3 by auto. repeat destruct Nat.eq_dec; congruence. }
  split. { intros i Hi. rewrite K3, J3 by auto. repeat destruct Nat.eq_dec; congruence. }
  pose proof (nDA m A e D d Hm HA TD). pose proof (nDB m A e B k D d Hm HA TB TD).
  pose proof (nEA m A e B k E g Hm HA TB TE). pose proof (nEB m A e B k E g Hm HA TB TE).
  pose proof (nCA m A e C c Hm HA TC). pose proof (nCB m A e B k C c Hm HA TB TC).
  pose proof (nFA m A e B k F f Hm HA TB TF). pose proof (nFB m A e B k F f Hm HA TB TF).
  rewrite !LL by auto. do 4 (split; [auto|]).
  pose proof (lC m A e C c TC) as K1'. pose proof (lD m A e D d TD) as K2'. pose proof (lE m B k E g TE) as K3'. pose proof (lF m B k F f TF) as K4'.
  intros t i Ht Hi HtA HtB U1 U2. rewrite LL by auto. apply G6; auto; intros Q; inversion Q; subst; congruence.
Qed.

Lemma po_mid : wp (
  aPo <- vset po W (mkP (Some C) (nx c)) ;;
  aPo <- vset aPo Y (mkP (Some E) (nx g)) ;;
  aPo <- vset aPo X (mkP (Some D) (nx d)) ;;
  vmod aPo Z (fun p => mkP None (pd p))) pmid.
Proof.
  pose proof HC0 as (_ & Q1 & _).
  assert (W < length po /\ X < length po /\ Y < length po /\ Z < length po) as (B1 & B2 & B3 & B4).
  { unfold W, X, Y, Z. auto. }
  apply wp_bind, wp_vset; [auto|]. apply wp_bind, wp_vset; [lens; auto|]. apply wp_bind, wp_vset; [lens; auto|].
  apply (wp_vmod _ (mkP None 0)); [lens; auto|].
  pose proof (XZ m A e B k Hm HA TB) as N. pose proof (ZY m A e B k Hm HA TB) as N'. pose proof (ZW m A e B k Hm HA TB) as N''.
  fold X in N. fold Z in N, N', N''. fold Y in N'. fold W in N''.
  split; [lens; auto|]. intros q Hq.
  rewrite !nth_upd by (lens; auto).
  repeat destruct Nat.eq_dec; try congruence; try (exfalso; congruence).
Qed.
End Run.
