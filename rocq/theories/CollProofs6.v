(** Edge collapse: the whole function. *)
From Coq Require Import List Arith Lia Bool Relations.
Import ListNotations.
From Verif Require Import Imp DtriModel DtriSpec CollModel CollSpec DtriProofs1 DtriProofs2 DtriProofs4 CollProofs1 CollProofs2 CollProofs3 CollProofs4 CollProofs5.

Definition cfan (m : list dtri) (A e B k C c F f : nat) (l : list (nat * nat)) : Prop :=
  path m (F, nx f) l /\ lastc (F, nx f) l = (C, pv c) /\ NoDup ((F, nx f) :: l ++ [(A, pv e); (B, nx k)]) /\
  (forall x, around m (A, pv e) x <-> In x ((F, nx f) :: l ++ [(A, pv e); (B, nx k)])) /\
  (forall s j, around m (A, pv e) (s, j) -> L m s (nx j) <> None).
Definition cring (m : list dtri) (A e B k C c F f : nat) (l : list (nat * nat)) : list nat :=
  map (far m) (match l with [] => [(C, pv c); (A, pv e); (B, nx k)] | _ => removelast ((F, nx f) :: l) end).

Definition outers (m : list dtri) (A e B k C c D d E g F f : nat) : Prop :=
  twin m A (nx e) C c /\ twin m A (pv e) D d /\ twin m B (nx k) E g /\ twin m B (pv k) F f.

Definition bad (m : list dtri) (A e B k : nat) : Prop :=
  L m A (nx e) = None \/ L m A (pv e) = None \/ L m B (nx k) = None \/ L m B (pv k) = None \/
  exists C c D d E g F f, outers m A e B k C c D d E g F f /\
   (L m C (pv c) = Some D \/ L m E (pv g) = Some F \/ (C = F /\ D = E) \/
    (exists s j, around m (A, pv e) (s, j) /\ L m s (nx j) = None) \/
    (exists s j, around m (B, pv k) (s, j) /\ L m s (nx j) = None) \/
    (exists l l', cfan m A e B k C c F f l /\ cfan m B k A e E g D d l' /\
       coll_common (cring m A e B k C c F f l) (cring m B k A e E g D d l') = true)).
Definition good (m : list dtri) (A e B k : nat) : Prop :=
  exists C c D d E g F f l l', outers m A e B k C c D d E g F f /\
    L m C (pv c) <> Some D /\ L m E (pv g) <> Some F /\ ~ (C = F /\ D = E) /\
    cfan m A e B k C c F f l /\ cfan m B k A e E g D d l' /\
    coll_common (cring m A e B k C c F f l) (cring m B k A e E g D d l') = false.

Ltac stepE := cbn [bind]; repeat match goal with E : ?x = Some _ |- wp (bind ?x _) _ => rewrite E; cbn [bind] end.

Lemma onat_refl : forall a, onat_eq a a = true.
Proof. intros a. destruct (onat_eqP a a); congruence. Qed.

Lemma mid_merged : forall po m A e B k C c D d E g F f l h f' o,
  consistent po m -> A < length m -> twin m A e B k -> outers m A e B k C c D d E g F f -> ~ (C = F /\ D = E) ->
  cfan m A e B k C c F f l ->
  mid m A e B C c D d E g F f l h -> length f' + 2 = length m ->
  (forall s, s < length f' -> o s < length m /\ o s <> A /\ o s <> B) ->
  (forall z, z < length m -> z <> A -> z <> B -> exists s, s < length f' /\ o s = z) ->
  (forall s s', s < length f' -> s' < length f' -> o s = o s' -> s = s') ->
  (forall s i, s < length f' -> V f' s i = V h (o s) i) ->
  (forall s i, s < length f' -> i < 3 -> (L f' s i = None <-> L h (o s) i = None)) ->
  (forall s i j, s < length f' -> i < 3 -> j < length f' -> L h (o s) i = Some (o j) -> L f' s i = Some j) ->
  merged m f' A e B k o.
Proof.
  intros po m A e B k C c D d E g F f l h f' o HC HA TB (TC & TD & TE & TF) N3 (P1 & P2 & P3 & P4 & P5)
    (G0 & G1 & G2 & G3 & G4 & G5 & G6 & G7 & G8) Hl O1 O2 O3 O4 O5 O6.
  pose proof (proj1 HC) as Hm.
  assert (FO : forall t i, t <> A -> t <> B -> (In (t, i) (fin F f l) <-> around m (A, pv e) (t, i)))
    by exact (fin_O m A e B k C D E F f N3 l P4).
  split; [auto|]. split; [auto|]. split; [auto|]. split; [auto|].
  split. { intros s i Hs Hi H. destruct (O1 s Hs) as (Q1 & Q2 & Q3). rewrite O4, G1 by auto.
    destruct in_dec as [|N]; auto. exfalso. apply N. apply FO; auto. }
  split. { intros s i Hs Hi H. destruct (O1 s Hs) as (Q1 & Q2 & Q3). rewrite O4, G1 by auto.
    destruct in_dec as [N|]; auto. exfalso. apply H. apply FO; auto. }
  split. { intros s i Hs Hi. destruct (O1 s Hs) as (Q1 & Q2 & Q3). rewrite O5 by auto.
    destruct (onat_eqP (L m (o s) i) (Some A)) as [EA|EA].
    { rewrite EA. destruct (to_A m A e B k C c D d Hm HA TB TC TD (o s) i Q1 Hi EA) as [H|[H|H]]; injection H as H1 H2;
        [rewrite H1, H2, G4; split; discriminate|rewrite H1, H2, G5; split; discriminate|congruence]. }
    destruct (onat_eqP (L m (o s) i) (Some B)) as [EB|EB].
    { rewrite EB. destruct (to_B m A e B k E g F f Hm HA TB TE TF (o s) i Q1 Hi EB) as [H|[H|H]]; injection H as H1 H2;
        [rewrite H1, H2, G6; split; discriminate|rewrite H1, H2, G7; split; discriminate|congruence]. }
    rewrite G8 by auto. tauto. }
  split. { intros s i j Hs Hi Hj H. destruct (O1 s Hs) as (Q1 & Q2 & Q3). destruct (O1 j Hj) as (R1 & R2 & R3).
    apply O6; auto. rewrite G8; auto; congruence. }
  split.
  - intros s a s' b Hs Hs' T T'.
    destruct (twin_fun _ _ _ _ _ _ _ Hm HA T TC) as (E1 & ->). destruct (twin_fun _ _ _ _ _ _ _ Hm HA T' TD) as (E2 & ->).
    split; apply O6; auto; try apply TC; try apply TD; congruence.
  - intros s a s' b Hs Hs' T T'. pose proof (HB m A e B k Hm HA TB) as HBl.
    destruct (twin_fun _ _ _ _ _ _ _ Hm HBl T TE) as (E1 & ->). destruct (twin_fun _ _ _ _ _ _ _ Hm HBl T' TF) as (E2 & ->).
    split; apply O6; auto; try apply TE; try apply TF; congruence.
Qed.

Lemma collapse_main : forall po m A e B k, consistent po m -> A < length m -> twin m A e B k -> edge_once m A e B ->
  wp (CollapseEdge_MeshDTri A e po m) (fun r => let '(b, (po', f)) := r in
    (b = false /\ po' = po /\ f = m /\ bad m A e B k) \/
    (b = true /\ consistent po' f /\ length po' = length po /\
     (forall q, q < length po -> q <> V m A (pv e) -> has_link po q -> has_link po' q) /\
     (exists o, merged m f A e B k o) /\ good m A e B k)).
Proof.
  intros po m A e B k HC0 HA TB Honce. pose proof (proj1 HC0) as Hm.
  pose proof TB as (He & Hk & LA & LB & _). pose proof (HB m A e B k Hm HA TB) as HBl.
  unfold CollapseEdge_MeshDTri.
  assert (Bad : bad m A e B k -> wp (Some (false, (po, m))) (fun r => let '(b, (po', f)) := r in
    (b = false /\ po' = po /\ f = m /\ bad m A e B k) \/
    (b = true /\ consistent po' f /\ length po' = length po /\
     (forall q, q < length po -> q <> V m A (pv e) -> has_link po q -> has_link po' q) /\
     (exists o, merged m f A e B k o) /\ good m A e B k))) by (intros; apply wp_some; left; auto).
  apply wp_bind, wp_assertb. { rewrite (proj2 (Nat.ltb_lt _ _) HA), (proj2 (Nat.ltb_lt _ _) He). reflexivity. }
  rewrite get_s2_ok by auto. rewrite LA. cbn [bind]. rewrite (adj_edge_ok m A e B k) by auto. cbn [bind].
  apply wp_bind, wp_assertb. { rewrite (proj2 (Nat.ltb_lt _ _) HBl), (proj2 (Nat.ltb_lt _ _) Hk). reflexivity. }
  rewrite get_s2_ok by auto. rewrite LB. cbn [bind]. apply wp_bind, wp_assertb; [apply onat_refl|]. cbv zeta.
  change ((e + 1) mod 3) with (nx e). change ((e + 2) mod 3) with (pv e). change ((k + 1) mod 3) with (nx k). change ((k + 2) mod 3) with (pv k).
  rewrite get_s2_ok by auto. cbn [bind]. destruct (L m A (nx e)) as [C|] eqn:LC; [|apply Bad; left; auto].
  rewrite get_s2_ok by auto. cbn [bind]. destruct (L m A (pv e)) as [D|] eqn:LD; [|apply Bad; right; left; auto].
  rewrite get_s2_ok by auto. cbn [bind]. destruct (L m B (nx k)) as [E|] eqn:LE; [|apply Bad; do 2 right; left; auto].
  rewrite get_s2_ok by auto. cbn [bind]. destruct (L m B (pv k)) as [F|] eqn:LF; [|apply Bad; do 3 right; left; auto].
  destruct (L_twin m A (nx e) C Hm HA ltac:(auto) LC) as (c & TC). destruct (L_twin m A (pv e) D Hm HA ltac:(auto) LD) as (d & TD).
  destruct (L_twin m B (nx k) E Hm HBl ltac:(auto) LE) as (g & TE). destruct (L_twin m B (pv k) F Hm HBl ltac:(auto) LF) as (f & TF).
  assert (Out : outers m A e B k C c D d E g F f) by (split; auto).
  assert (Bad' : (L m C (pv c) = Some D \/ L m E (pv g) = Some F \/ (C = F /\ D = E) \/
    (exists s j, around m (A, pv e) (s, j) /\ L m s (nx j) = None) \/
    (exists s j, around m (B, pv k) (s, j) /\ L m s (nx j) = None) \/
    (exists l l', cfan m A e B k C c F f l /\ cfan m B k A e E g D d l' /\
       coll_common (cring m A e B k C c F f l) (cring m B k A e E g D d l') = true)) -> bad m A e B k).
  { intros H. do 4 right. exists C, c, D, d, E, g, F, f. auto. }
  pose proof (hc m A e C c TC) as Hc. pose proof (hd' m A e D d TD) as Hd. pose proof (hg m B k E g TE) as Hg. pose proof (hf m B k F f TF) as Hf.
  pose proof (HC m A e C c Hm HA TC) as HCl. pose proof (HD m A e D d Hm HA TD) as HDl.
  pose proof (HE m A e B k E g Hm HA TB TE) as HEl. pose proof (HF m A e B k F f Hm HA TB TF) as HFl.
  rewrite (adj_edge_ok m A (nx e) C c), (adj_edge_ok m A (pv e) D d), (adj_edge_ok m B (nx k) E g), (adj_edge_ok m B (pv k) F f) by auto.
  cbn [bind]. cbv zeta.
  change ((c + 1) mod 3) with (nx c). change ((c + 2) mod 3) with (pv c). change ((d + 1) mod 3) with (nx d).
  change ((g + 1) mod 3) with (nx g). change ((g + 2) mod 3) with (pv g). change ((f + 1) mod 3) with (nx f).
  rewrite get_s2_ok by auto. cbn [bind].
  destruct (onat_eqP (L m C (pv c)) (Some D)) as [N1|N1].
  { (* the assertion in this branch *)
    rewrite get_s2_ok by auto. cbn [bind]. apply wp_bind, wp_assertb; [|apply Bad, Bad'; auto].
    destruct (L_twin m C (pv c) D Hm HCl ltac:(auto) N1) as (q & T). pose proof T as (_ & Hq & _ & Lq & T1 & T2).
    destruct (ix3 d q Hd Hq) as [-> | [-> | ->]].
    - exfalso. destruct TD as (_ & _ & _ & X & _). rewrite Lq in X. inversion X. apply (nCA m A e C c Hm HA TC); auto.
    - rewrite Lq. apply onat_refl.
    - exfalso. rewrite pv_pv in T2 by auto. rewrite (vC1 m A e B k C c TB TC) in T2.
      rewrite nx_pv in T2 by auto. rewrite <- (vD2 m A e B k D d TB TD) in T2.
      destruct (Hm D HDl) as (QQ & _). apply QQ in T2; auto. apply (pv_ne d); auto. }
  rewrite get_s2_ok by auto. cbn [bind].
  destruct (onat_eqP (L m E (pv g)) (Some F)) as [N2|N2].
  { rewrite get_s2_ok by auto. cbn [bind]. apply wp_bind, wp_assertb; [|apply Bad, Bad'; auto].
    destruct (L_twin m E (pv g) F Hm HEl ltac:(auto) N2) as (q & T). pose proof T as (_ & Hq & _ & Lq & T1 & T2).
    destruct (ix3 f q Hf Hq) as [-> | [-> | ->]].
    - exfalso. destruct TF as (_ & _ & _ & X & _). rewrite Lq in X. inversion X. apply (nEB m A e B k E g Hm HA TB TE); auto.
    - rewrite Lq. apply onat_refl.
    - exfalso. rewrite pv_pv in T2 by auto. rewrite (vE1 m A e B k E g TB TE) in T2.
      rewrite nx_pv in T2 by auto. rewrite <- (vF2 m A e B k F f TB TF) in T2.
      destruct (Hm F HFl) as (QQ & _). apply QQ in T2; auto. apply (pv_ne f); auto. }
  destruct ((C =? F) && (D =? E)) eqn:N3b.
  { apply Bad, Bad'. apply andb_true_iff in N3b. destruct N3b as (U1 & U2). apply Nat.eqb_eq in U1, U2. auto. }
  assert (N3 : ~ (C = F /\ D = E)).
  { intros (U1 & U2). rewrite U1, U2, !Nat.eqb_refl in N3b. discriminate. }
  clear N3b.
  rewrite !(vget_nth _ dtri0) by auto. cbn [bind]. rewrite !gv_vtx by auto. cbn [bind].
  change (vtx (nth A m dtri0) e) with (V m A e). change (vtx (nth A m dtri0) (nx e)) with (V m A (nx e)).
  change (vtx (nth A m dtri0) (pv e)) with (V m A (pv e)).
  change (vtx (nth B m dtri0) k) with (V m B k). change (vtx (nth B m dtri0) (nx k)) with (V m B (nx k)).
  change (vtx (nth B m dtri0) (pv k)) with (V m B (pv k)).
  rewrite (vB1 m A e B k TB), (vB2 m A e B k TB).
  rewrite get_v_ok by auto. cbn [bind]. rewrite (vD1 m A e B k D d TB TD). apply wp_bind, wp_assertb; [apply Nat.eqb_refl|].
  rewrite get_v_ok by auto. cbn [bind]. rewrite (vF1 m A e B k F f TB TF). apply wp_bind, wp_assertb; [apply Nat.eqb_refl|].
  destruct (fan_cases m A e B k C c F f Hm HA TB TC TF) as [(R1 & R2)|(l & P1 & P2 & P3 & P4 & P5 & R1)].
  { rewrite R1. cbn [bind]. apply Bad, Bad'. auto. }
  rewrite R1. cbn [bind].
  destruct (fan_cases m B k A e E g D d Hm HBl (twin_sym _ _ _ _ _ TB) TE TD) as [(R2 & R3)|(l' & P1' & P2' & P3' & P4' & P5' & R2)].
  { rewrite (vB2 m A e B k TB) in R2. rewrite R2. cbn [bind]. apply Bad, Bad'. auto 10. }
  rewrite (vB2 m A e B k TB) in R2. rewrite R2. cbn [bind].
  assert (CF : cfan m A e B k C c F f l) by (split; auto). assert (CF' : cfan m B k A e E g D d l') by (split; auto).
  fold (cring m A e B k C c F f l). fold (cring m B k A e E g D d l').
  destruct (coll_common (cring m A e B k C c F f l) (cring m B k A e E g D d l')) eqn:Cm.
  { apply Bad, Bad'. do 5 right. exists l, l'. auto. }
  assert (Good : good m A e B k) by (exists C, c, D, d, E, g, F, f, l, l'; auto 10).
  apply wp_bind, wp_assertb; [apply Nat.eqb_refl|]. apply wp_bind, wp_assertb; [apply Nat.eqb_refl|].
  rewrite !gs_lnk by auto. cbn [bind].
  change (lnk (nth A m dtri0) e) with (L m A e). change (lnk (nth A m dtri0) (nx e)) with (L m A (nx e)).
  change (lnk (nth A m dtri0) (pv e)) with (L m A (pv e)).
  change (lnk (nth B m dtri0) k) with (L m B k). change (lnk (nth B m dtri0) (nx k)) with (L m B (nx k)).
  change (lnk (nth B m dtri0) (pv k)) with (L m B (pv k)).
  rewrite LA, LB, LC, LD, LE, LF. apply wp_bind, wp_assertb; [apply onat_refl|]. apply wp_bind, wp_assertb; [apply onat_refl|].
  destruct (wp_ex _ _ _ (po_mid po m A e B k C c D d E g HC0 HA TB)) as (p1 & Ep & Hp1).
  bindE Ep. stepE.
  destruct (wp_ex _ _ _ (glue_all po m A e B k C c D d E g F f HC0 HA TB TC TD TE TF N3)) as (m1 & Em & Hm1).
  bindE Em. stepE.
  pose proof (fan_glued po m A e B k C c D d E g F f HC0 HA TB TC TD TE TF Honce N3 l P1 P2 P3 P4 m1 Hm1) as Hfan.
  rewrite Hfan. cbn [bind].
  destruct (wp_ex _ _ _ (tail_mid po m A e B k C c D d E g F f HC0 HA TB TC TD TE TF N3 l P3 P4 m1 Hm1)) as (h & Eh & Hh).
  bindE Eh. stepE.
  pose proof (mid_tri_ok po m A e B k C c D d E g F f HC0 HA TB TC TD TE TF Honce N1 N2 N3 l P1 P2 P3 P4 h Hh) as Hht.
  pose proof (pmid_ok po m A e B k C c D d E g F f HC0 HA TB TC TD TE N3 l P4 h p1 Hh Hp1) as Hpo.
  pose proof (pmid_AB po m A e B k C c D d E g HC0 HA TB TC TD TE p1 Hp1) as HAB.
  pose proof Hp1 as (Hpl & Hpn). pose proof Hh as (G0 & _ & G2 & G3 & _).
  pose proof (nAB m A e B k Hm HA TB) as NAB.
  assert (Hlk : forall q, q < length po -> q <> V m A (pv e) -> has_link po q -> has_link p1 q).
  { intros q Hq Hz H. unfold has_link. rewrite Hpn by auto. repeat (destruct Nat.eq_dec; [cbn; congruence|]). exact H. }
  eapply wp_mono.
  { apply (delete2 p1 h (if B <? A then A else B) (if A <? B then A else B)).
    - split; auto.
    - destruct (Nat.ltb_spec B A), (Nat.ltb_spec A B); lia.
    - rewrite G0. destruct (Nat.ltb_spec B A); auto.
    - destruct (B <? A); auto.
    - destruct (A <? B); auto.
    - rewrite Hpl. intros p Hpp. destruct (HAB p Hpp). destruct (B <? A), (A <? B); auto. }
  intros (b & po' & f') (-> & D1 & D2 & D3 & D4 & o & D5 & D6 & D7 & D8 & D9 & D10). right.
  split; [auto|]. split; [auto|]. split; [congruence|]. split; [intros q Hq Hz H; apply D4; [lia|]; auto|].
  split; [|auto]. exists o. rewrite G0 in D3, D5, D6.
  assert (Sw : forall z, z <> (if B <? A then A else B) -> z <> (if A <? B then A else B) -> z <> A /\ z <> B).
  { intros z. destruct (Nat.ltb_spec B A), (Nat.ltb_spec A B); try lia; auto. }
  assert (Sw' : forall z, z <> A -> z <> B -> z <> (if B <? A then A else B) /\ z <> (if A <? B then A else B)).
  { intros z. destruct (Nat.ltb_spec B A), (Nat.ltb_spec A B); try lia; auto. }
  apply (mid_merged po m A e B k C c D d E g F f l h f' o); auto.
  - intros s Hs. destruct (D5 s Hs) as (U1 & U2 & U3). split; auto.
  - intros z Hz Hz1 Hz2. apply D6; auto; apply Sw'; auto.
Qed.
