(** Edge collapse: when the edge is collapsed. *)
From Coq Require Import List Arith Lia Bool Relations.
Import ListNotations.
From Verif Require Import Imp DtriModel DtriSpec CollModel CollSpec DtriProofs1 DtriProofs2 DtriProofs4 CollProofs1 CollProofs2 CollProofs3 CollProofs4 CollProofs5 CollProofs6.

Lemma simple_once : forall m t e u k, tri_ok m -> simple_edges m -> t < length m -> twin m t e u k -> edge_once m t e u.
Proof.
  intros m t e u k Hm Hs Ht TB s Hsl (i & Hi & Ei) (j & Hj & Ej). pose proof TB as (He & Hk & _ & _ & E1 & E2).
  pose proof (HB m t e u k Hm Ht TB) as Hu.
  assert (Nij : i <> j). { intros ->. apply (XZ m t e u k Hm Ht TB). congruence. }
  destruct (ix3 i j Hi Hj) as [X|[X|X]]; [congruence| |]; subst j.
  - left. destruct (Hs s (pv i) t e) as (A & _); auto. rewrite nx_pv by auto. auto. rewrite pv_pv by auto. auto.
  - right. destruct (Hs s (nx i) u k) as (A & _); auto. rewrite nx_nx by auto. congruence. rewrite pv_nx by auto. congruence.
Qed.

Section When.
Variables (m : list dtri).
Hypothesis Hm : tri_ok m.

Lemma around_trans : forall x y z, around m x y -> around m y z -> around m x z.
Proof. intros. eapply rt_trans; eauto. Qed.

(** around a closed fan every corner has a predecessor, which is in the fan *)
Lemma closed_prev : forall c x, vc m c -> (forall s j, around m c (s, j) -> L m s (nx j) <> None) -> around m c x ->
  exists y, turn m y x /\ around m c y /\ vc m y.
Proof.
  intros c x Hc Hcl Hx. pose proof (proj1 (around_vc m Hm c x Hc Hx)) as Vx.
  destruct (orbit m Hm x Vx) as (l & Pl & Nd & [H|H]).
  - exfalso. destruct (lastc x l) as (s, j) eqn:E. apply (Hcl s j); auto. apply around_trans with x; auto.
    rewrite <- E. apply (path_around m l); auto. apply lastc_in.
  - exists (lastc x l). pose proof (path_around m l x Pl _ (lastc_in l x)) as Q.
    split; [auto|]. split; [apply around_trans with x; auto|]. apply (path_vc m Hm l x Vx Pl). apply lastc_in.
Qed.
Lemma closed_prev_link : forall c s j, vc m c -> (forall s j, around m c (s, j) -> L m s (nx j) <> None) -> around m c (s, j) ->
  L m s (pv j) <> None.
Proof.
  intros c s j Hc Hcl Hx. destruct (closed_prev c (s, j) Hc Hcl Hx) as (y & (k & T & E) & _). cbn [fst snd] in *. subst j.
  rewrite pv_nx by apply T. destruct T as (_ & _ & _ & T & _). congruence.
Qed.

Lemma closed_around : forall c x, vc m c -> vc m x -> (forall s j, around m c (s, j) -> L m s (nx j) <> None) -> in_fan m c x ->
  around m c x.
Proof.
  intros c x Hc Hx Hcl [H|H]; auto. apply clos_rt_rt1n in H. induction H as [|x x1 c T H IH]; [apply rt_refl|].
  pose proof (turn_vc m Hm x x1 Hx T) as V1.
  destruct (closed_prev c x1 Hc Hcl (IH Hc V1 Hcl)) as (y & T' & Ay & Vy).
  rewrite (turn_inj m Hm x y x1); auto.
Qed.

Variables (A e B k C c D d E g F f : nat).
Hypothesis HA : A < length m.
Hypothesis TB : twin m A e B k.
Let X := V m A (nx e). Let Z := V m A (pv e). Let W := V m A e. Let Y := V m B k.
Hypothesis Hs : simple_edges m.

(** the ends of the edges at Z, in the fan *)
Lemma far_inj : forall x y, vc m x -> vc m y -> P m x = P m y -> far m x = far m y -> x = y.
Proof.
  intros (s, i) (s', i') (H1 & H2) (H3 & H4) E1 E2. unfold P, far in *. cbn [fst snd] in *.
  destruct (Hs s (nx i) s' (nx i')) as (U & U'); auto.
  - rewrite !nx_nx by auto. auto.
  - rewrite !pv_nx by auto. auto.
  - apply nx_inj in U'; congruence || auto.
Qed.
Lemma far_ne : forall x, vc m x -> far m x <> P m x.
Proof. intros (s, i) (H1 & H2) E0. unfold far, P in E0. cbn [fst snd] in *. destruct (Hm s H1) as (Q & _). apply Q in E0; auto. apply (pv_ne i); auto. Qed.

Lemma removelast_in : forall (l : list (nat * nat)) x y, In y (x :: l) -> In y (removelast (x :: l)) \/ y = lastc x l.
Proof.
  induction l as [|a l IH]; intros x y Hy.
  - destruct Hy as [<-|[]]. right. reflexivity.
  - rewrite lastc_cons. change (removelast (x :: a :: l)) with (x :: removelast (a :: l)).
    destruct Hy as [<-|Hy]; [left; left; auto|]. destruct (IH a y Hy); [left; right; auto|auto].
Qed.
Lemma removelast_sub : forall (l : list (nat * nat)) y, In y (removelast l) -> In y l.
Proof.
  induction l as [|a l IH]; intros y H; [destruct H|]. destruct l as [|b l]; [destruct H|].
  change (removelast (a :: b :: l)) with (a :: removelast (b :: l)) in H. destruct H as [<-|H]; [left; auto|right; apply IH; auto].
Qed.
Lemma removelast_last : forall l (x : nat * nat), NoDup (x :: l) -> ~ In (lastc x l) (removelast (x :: l)).
Proof.
  induction l as [|a l IH]; intros x Nd H; [destruct H|].
  rewrite lastc_cons in H. change (removelast (x :: a :: l)) with (x :: removelast (a :: l)) in H.
  inversion Nd as [|? ? N1 N2]; subst. destruct H as [H|H].
  - apply N1. rewrite H. apply lastc_in.
  - apply (IH a); auto.
Qed.
End When.

Lemma NoDup_app_l : forall {T} (l l' : list T), NoDup (l ++ l') -> NoDup l.
Proof. induction l as [|a l IH]; intros l' H; constructor; inversion H; subst; [rewrite in_app_iff in *; tauto|eauto]. Qed.

(** the ring of a closed fan *)
Lemma cring_spec : forall m A e B k C c F f l, tri_ok m -> simple_edges m -> A < length m -> twin m A e B k ->
  twin m A (nx e) C c -> twin m B (pv k) F f -> cfan m A e B k C c F f l ->
  (l = [] -> C = F /\ cring m A e B k C c F f l = [V m A e; V m A (nx e); V m B k]) /\
  (l <> [] -> forall q, In q (cring m A e B k C c F f l) <->
     (exists x, around m (A, pv e) x /\ far m x = q) /\ q <> V m A e /\ q <> V m A (nx e) /\ q <> V m B k).
Proof.
  intros m A e B k C c F f l Hm Hs HA TB TC TF (P1 & P2 & P3 & P4 & P5).
  pose proof (he m A e B k TB) as He. pose proof (hk m A e B k TB) as Hk. pose proof (hc m A e C c TC) as Hc.
  assert (fC : far m (C, pv c) = V m A e).
  { unfold far. cbn [fst snd]. rewrite pv_pv by auto. apply (vC1 m A e B k C c); auto. }
  assert (fA : far m (A, pv e) = V m A (nx e)). { unfold far. cbn [fst snd]. rewrite pv_pv by auto. auto. }
  assert (fB : far m (B, nx k) = V m B k). { unfold far. cbn [fst snd]. rewrite pv_nx by auto. auto. }
  assert (VA : vc m (A, pv e)) by (split; cbn; auto).
  assert (Vx : forall x, around m (A, pv e) x -> vc m x /\ P m x = P m (A, pv e)) by (intros; apply around_vc; auto).
  split.
  - intros ->. unfold lastc in P2. cbn [last] in P2. split; [congruence|]. unfold cring. cbn [map]. rewrite fC, fA, fB. reflexivity.
  - intros Hl q.
    assert (ER : cring m A e B k C c F f l = map (far m) (removelast ((F, nx f) :: l))) by (unfold cring; destruct l; [congruence|auto]).
    rewrite ER.
    change ((F, nx f) :: l ++ [(A, pv e); (B, nx k)]) with (((F, nx f) :: l) ++ [(A, pv e); (B, nx k)]) in *.
    pose proof (NoDup_app_l _ _ P3) as Nl. pose proof (removelast_last l _ Nl) as NL. rewrite P2 in NL.
    assert (NA : forall x, In x (removelast ((F, nx f) :: l)) -> x <> (A, pv e) /\ x <> (B, nx k)).
    { intros x Hx. apply removelast_sub in Hx. clear - P3 Hx. apply in_split in Hx. destruct Hx as (a & b & Ea); rewrite Ea in P3.
      rewrite <- app_assoc in P3. cbn [app] in P3. apply NoDup_remove_2 in P3.
      split; intros ->; apply P3; rewrite !in_app_iff; cbn; tauto. }
    assert (I : forall x, In x (removelast ((F, nx f) :: l)) -> around m (A, pv e) x).
    { intros x Hx. apply P4. apply in_app_iff. left. apply removelast_sub; auto. }
    assert (AC : around m (A, pv e) (C, pv c)). { apply P4. rewrite <- P2. apply in_app_iff. left. apply lastc_in. }
    assert (AB : around m (A, pv e) (B, nx k)). { apply P4. apply in_app_iff. right; cbn; auto. }
    assert (NF : forall x y, In x (removelast ((F, nx f) :: l)) -> around m (A, pv e) y -> far m x = far m y -> x = y).
    { intros x y Hx Hy Ef. apply (far_inj m Hs); auto; try apply Vx; auto.
      rewrite (proj2 (Vx x (I x Hx))), (proj2 (Vx y Hy)). auto. }
    rewrite in_map_iff. split.
    + intros (x & <- & Hx). split; [eauto|]. destruct (NA x Hx) as (N1 & N2).
      rewrite <- fC, <- fA, <- fB. split; [|split].
      * intros Q. apply NF in Q; auto. congruence.
      * intros Q. apply NF in Q; auto. apply P4. apply in_app_iff. right; cbn; auto.
      * intros Q. apply NF in Q; auto.
    + intros ((x & Hx & <-) & N1 & N2 & N3). exists x. split; auto. apply P4 in Hx. apply in_app_iff in Hx.
      destruct Hx as [Hx|[<-|[<-|[]]]]; [|exfalso; auto|exfalso; auto].
      destruct (removelast_in l _ x Hx) as [Q|Q]; auto. exfalso. rewrite P2 in Q. subst x. auto.
Qed.

Lemma common_iff : forall r1 r2, coll_common r1 r2 = true <-> exists q, In q r1 /\ In q r2.
Proof.
  intros r1 r2. unfold coll_common. rewrite existsb_exists. split.
  - intros (q & H1 & H2). apply existsb_exists in H2. destruct H2 as (y & H2 & H3). apply Nat.eqb_eq in H3. subst y. eauto.
  - intros (q & H1 & H2). exists q. split; auto. apply existsb_exists. exists q. split; auto. apply Nat.eqb_refl.
Qed.

(** neighbours of the point of a closed whole fan *)
Lemma joined_far : forall m t i q, tri_ok m -> t < length m -> i < 3 -> whole_fan m t i ->
  closed_fan m t i -> joined m q (V m t i) -> exists x, around m (t, i) x /\ far m x = q.
Proof.
  intros m t i q Hm Ht Hi Hw Hcl (Nq & s & Hsl & (a & Ha & Ea) & (b & Hb & Eb)).
  pose proof (closed_around m Hm (t, i) (s, b) ltac:(split; auto) ltac:(split; auto) Hcl (Hw s b Hsl Hb Eb)) as Ar. destruct (ix3 b a Hb Ha) as [U|[U|U]]; subst a.
  - congruence.
  - destruct (closed_prev m Hm (t, i) (s, b) ltac:(split; auto) Hcl Ar) as (y & (kk & T & E0) & Ay & Vy). exists y. split; auto.
    unfold far. cbn [fst snd] in *. subst b. destruct T as (_ & Hkk & _ & _ & T & _). rewrite nx_nx in T by apply Vy.
    rewrite T, <- Ea. rewrite nx_nx; auto.
  - exists (s, b). split; auto.
Qed.
Lemma far_joined : forall m t i x, tri_ok m -> t < length m -> i < 3 -> around m (t, i) x -> joined m (far m x) (V m t i).
Proof.
  intros m t i (s, j) Hm Ht Hi Hx. destruct (around_vc m Hm (t, i) (s, j) ltac:(split; auto) Hx) as ((H1 & H2) & H3).
  unfold far, P in *. cbn [fst snd] in *. split.
  - rewrite <- H3. intros U. destruct (Hm s H1) as (Q & _). apply Q in U; auto. apply (pv_ne j); auto.
  - exists s. split; auto. split; [exists (pv j); auto|exists j; auto].
Qed.

Section Iff.
Variables (m : list dtri) (A e B k : nat).
Hypothesis Hm : tri_ok m.
Hypothesis HA : A < length m.
Hypothesis TB : twin m A e B k.
Hypothesis Hs : simple_edges m.
Hypothesis WZ : whole_fan m A (pv e).
Hypothesis WX : whole_fan m A (nx e).
Let He : e < 3 := he m A e B k TB.
Let Hk : k < 3 := hk m A e B k TB.
Let HBl : B < length m := HB m A e B k Hm HA TB.

Lemma XB : around m (B, pv k) (A, nx e).
Proof. apply rt_step. apply twin_turn. apply twin_sym. auto. Qed.
Lemma BX : closed_fan m A (nx e) -> around m (A, nx e) (B, pv k).
Proof. intros H. apply closed_around; auto; try (split; cbn; auto; fail). right. apply XB. Qed.

Lemma bad_not : bad m A e B k -> ~ link_ok m A e B k.
Proof.
  intros Hb (CZ & CX & Cn & N3).
  assert (VZ : vc m (A, pv e)) by (split; cbn; auto). assert (VX : vc m (A, nx e)) by (split; cbn; auto).
  destruct Hb as [H|[H|[H|[H|(C & c & D & d & E & g & F & f & (TC & TD & TE & TF) & H)]]]].
  - apply (closed_prev_link m Hm (A, pv e) A (pv e) VZ CZ (rt_refl _ _ _)). rewrite pv_pv by auto. auto.
  - apply (CX A (nx e) (rt_refl _ _ _)). rewrite nx_nx by auto. auto.
  - apply (closed_prev_link m Hm (A, nx e) B (pv k) VX CX (BX CX)). rewrite pv_pv by auto. auto.
  - apply (CZ B (nx k)). { apply rt_step. apply twin_turn; auto. } rewrite nx_nx by auto. auto.
  - pose proof (hc m A e C c TC) as Hc. pose proof (hd' m A e D d TD) as Hd.
    pose proof (hg m B k E g TE) as Hg. pose proof (hf m B k F f TF) as Hf.
    pose proof (HC m A e C c Hm HA TC) as HCl. pose proof (HD m A e D d Hm HA TD) as HDl.
    pose proof (HE m A e B k E g Hm HA TB TE) as HEl. pose proof (HF m A e B k F f Hm HA TB TF) as HFl.
    assert (N3' : ~ (C = F /\ D = E)).
    { intros (U1 & U2). apply N3. destruct TC as (_ & _ & -> & _), TD as (_ & _ & -> & _), TE as (_ & _ & -> & _), TF as (_ & _ & -> & _). subst; auto. }
    destruct H as [H|[H|[H|[H|[H|H]]]]].
    + (* three triangles at W *)
      destruct (L_twin m C (pv c) D Hm HCl ltac:(auto) H) as (q & T). pose proof T as (_ & Hq & _ & Lq & T1 & T2).
      rewrite nx_pv in T1 by auto. rewrite pv_pv in T2 by auto. rewrite (vC1 m A e B k C c TB TC) in T2.
      assert (Eq : q = nx d).
      { destruct (Hm D HDl) as (Q & _). rewrite <- (vD2 m A e B k D d TB TD) in T2. apply Q in T2; auto.
        rewrite <- (pv_nx q) by auto. rewrite <- T2. rewrite pv_pv; auto. }
      subst q. rewrite pv_nx in T1 by auto.
      assert (NcC : V m C c <> V m A (pv e)).
      { rewrite <- (vC2 m A e B k C c TB TC). intros U. destruct (Hm C HCl) as (Q & _). apply Q in U; auto. apply (pv_ne c); auto. }
      destruct (Cn (V m C c)) as [U|U].
      * split. { rewrite T1, <- (vD1 m A e B k D d TB TD). intros U. destruct (Hm D HDl) as (Q & _). apply Q in U; auto. apply (nx_ne d); auto. }
        exists D. split; auto. split; [exists d; auto|exists (nx d); split; auto; apply (vD1 m A e B k D d TB TD)].
      * split; auto. exists C. split; auto. split; [exists c; auto|exists (pv c); split; auto; apply (vC2 m A e B k C c TB TC)].
      * rewrite <- (vC1 m A e B k C c TB TC) in U. destruct (Hm C HCl) as (Q & _). apply Q in U; auto. apply (nx_ne c); auto.
      * apply N3'. split.
        -- destruct (Hs C (nx c) F f) as (R & _); auto.
           ++ rewrite nx_nx by auto. rewrite (vC2 m A e B k C c TB TC), (vF1 m A e B k F f TB TF). auto.
           ++ rewrite pv_nx by auto. rewrite U, (vF2 m A e B k F f TB TF). auto.
        -- destruct (Hs D (pv d) E g) as (R & _); auto.
           ++ rewrite nx_pv by auto. rewrite <- T1, U, (vE1 m A e B k E g TB TE). auto.
           ++ rewrite pv_pv by auto. rewrite (vD1 m A e B k D d TB TD), (vE2 m A e B k E g TB TE). auto.
    + (* three triangles at Y *)
      destruct (L_twin m E (pv g) F Hm HEl ltac:(auto) H) as (q & T). pose proof T as (_ & Hq & _ & Lq & T1 & T2).
      rewrite nx_pv in T1 by auto. rewrite pv_pv in T2 by auto. rewrite (vE1 m A e B k E g TB TE) in T2.
      assert (Eq : q = nx f).
      { destruct (Hm F HFl) as (Q & _). rewrite <- (vF2 m A e B k F f TB TF) in T2. apply Q in T2; auto.
        rewrite <- (pv_nx q) by auto. rewrite <- T2. rewrite pv_pv; auto. }
      subst q. rewrite pv_nx in T1 by auto.
      destruct (Cn (V m E g)) as [U|U].
      * split. { rewrite <- (vE2 m A e B k E g TB TE). intros U. destruct (Hm E HEl) as (Q & _). apply Q in U; auto. apply (pv_ne g); auto. }
        exists E. split; auto. split; [exists g; auto|exists (pv g); split; auto; apply (vE2 m A e B k E g TB TE)].
      * split. { rewrite T1, <- (vF1 m A e B k F f TB TF). intros U. destruct (Hm F HFl) as (Q & _). apply Q in U; auto. apply (nx_ne f); auto. }
        exists F. split; auto. split; [exists f; auto|exists (nx f); split; auto; apply (vF1 m A e B k F f TB TF)].
      * apply N3'. split.
        -- destruct (Hs F (pv f) C c) as (R & _); auto.
           ++ rewrite nx_pv by auto. rewrite <- T1, U, (vC1 m A e B k C c TB TC). auto.
           ++ rewrite pv_pv by auto. rewrite (vF1 m A e B k F f TB TF), (vC2 m A e B k C c TB TC). auto.
        -- destruct (Hs E (nx g) D d) as (R & _); auto.
           ++ rewrite nx_nx by auto. rewrite (vE2 m A e B k E g TB TE), (vD1 m A e B k D d TB TD). auto.
           ++ rewrite pv_nx by auto. rewrite U, (vD2 m A e B k D d TB TD). auto.
      * rewrite <- (vE1 m A e B k E g TB TE) in U. destruct (Hm E HEl) as (Q & _). apply Q in U; auto. apply (nx_ne g); auto.
    + auto.
    + destruct H as (s & j & H1 & H2). apply (CZ s j); auto.
    + destruct H as (s & j & H1 & H2). apply (CX s j); auto. apply (around_trans m _ (B, pv k)); auto. apply BX; auto.
    + destruct H as (l & l' & F1 & F2 & H). apply common_iff in H. destruct H as (q & Q1 & Q2).
      destruct (cring_spec m A e B k C c F f l Hm Hs HA TB TC TF F1) as (S1 & S2).
      destruct (cring_spec m B k A e E g D d l' Hm Hs HBl (twin_sym _ _ _ _ _ TB) TE TD F2) as (S1' & S2').
      rewrite (vB1 m A e B k TB) in S1', S2'.
      destruct l as [|x0 l]; [destruct (S1 eq_refl) as (U1 & R1); rewrite R1 in Q1|];
      (destruct l' as [|x0' l']; [destruct (S1' eq_refl) as (U1' & R1'); rewrite R1' in Q2|]).
      * apply N3'. split; auto.
      * apply (S2' ltac:(discriminate) q) in Q2. destruct Q2 as ((x & Ax & Fx) & M1 & M2 & M3).
        destruct Q1 as [<-|[<-|[<-|[]]]]; try congruence.
        destruct (far_joined m B (pv k) x Hm HBl ltac:(auto) Ax) as (Q & _). apply Q. rewrite Fx. symmetry. apply (vB2 m A e B k TB).
      * apply (S2 ltac:(discriminate) q) in Q1. destruct Q1 as ((x & Ax & Fx) & M1 & M2 & M3).
        destruct Q2 as [<-|[<-|[<-|[]]]]; try congruence.
        destruct (far_joined m A (pv e) x Hm HA ltac:(auto) Ax) as (Q & _). apply Q. rewrite Fx. reflexivity.
      * apply (S2 ltac:(discriminate) q) in Q1. apply (S2' ltac:(discriminate) q) in Q2.
        destruct Q1 as ((x & Ax & Fx) & M1 & M2 & M3). destruct Q2 as ((x' & Ax' & Fx') & M1' & M2' & M3').
        pose proof (far_joined m A (pv e) x Hm HA ltac:(auto) Ax) as J1. pose proof (far_joined m B (pv k) x' Hm HBl ltac:(auto) Ax') as J2.
        rewrite Fx in J1. rewrite Fx', (vB2 m A e B k TB) in J2. destruct (Cn q J2 J1); auto.
Qed.

Lemma good_ok : good m A e B k -> link_ok m A e B k.
Proof.
  intros (C & c & D & d & E & g & F & f & l & l' & (TC & TD & TE & TF) & N1 & N2 & N3 & F1 & F2 & Cm).
  pose proof F1 as (_ & _ & _ & P4 & CZ). pose proof F2 as (_ & _ & _ & P4' & CX').
  assert (CX : closed_fan m A (nx e)).
  { intros s j H. apply CX'. apply (around_trans m _ (A, nx e)); auto. apply XB. }
  split; [exact CZ|]. split; [exact CX|]. split.
  - intros q J1 J2.
    destruct (joined_far m A (pv e) q Hm HA ltac:(auto) WZ CZ J2) as (x & Ax & Fx).
    destruct (joined_far m A (nx e) q Hm HA ltac:(auto) WX CX J1) as (x' & Ax' & Fx').
    assert (Bx' : around m (B, pv k) x') by (apply (around_trans m _ (A, nx e)); auto; apply XB).
    destruct (cring_spec m A e B k C c F f l Hm Hs HA TB TC TF F1) as (S1 & S2).
    destruct (cring_spec m B k A e E g D d l' Hm Hs HBl (twin_sym _ _ _ _ _ TB) TE TD F2) as (S1' & S2').
    rewrite (vB1 m A e B k TB) in S1', S2'.
    destruct (Nat.eq_dec q (V m A e)); [auto|]. destruct (Nat.eq_dec q (V m B k)); [auto|]. exfalso.
    destruct J1 as (J1 & _), J2 as (J2 & _).
    assert (Hl : l <> []).
    { intros ->. destruct F1 as (_ & Q2 & _). unfold lastc in Q2. cbn [last] in Q2. apply P4 in Ax. cbn [app] in Ax. rewrite Q2 in Ax.
      destruct Ax as [<-|[<-|[<-|[]]]]; unfold far in Fx; cbn [fst snd] in Fx.
      - rewrite pv_pv in Fx by apply (hc m A e C c TC). rewrite (vC1 m A e B k C c TB TC) in Fx. auto.
      - rewrite pv_pv in Fx by auto. auto.
      - rewrite pv_nx in Fx by auto. auto. }
    assert (Hl' : l' <> []).
    { intros ->. destruct F2 as (_ & Q2 & _). unfold lastc in Q2. cbn [last] in Q2. apply P4' in Bx'. cbn [app] in Bx'. rewrite Q2 in Bx'.
      destruct Bx' as [<-|[<-|[<-|[]]]]; unfold far in Fx'; cbn [fst snd] in Fx'.
      - rewrite pv_pv in Fx' by apply (hg m B k E g TE). rewrite (vE1 m A e B k E g TB TE) in Fx'. auto.
      - rewrite pv_pv in Fx' by auto. rewrite (vB1 m A e B k TB) in Fx'. auto.
      - rewrite pv_nx in Fx' by auto. auto. }
    assert (T : coll_common (cring m A e B k C c F f l) (cring m B k A e E g D d l') = true).
    { apply common_iff. exists q. split; [apply (S2 Hl)|apply (S2' Hl')]; (split; [eauto|auto]). }
    congruence.
  - intros (U1 & U2). apply N3. destruct TC as (_ & _ & R1 & _), TD as (_ & _ & R2 & _), TE as (_ & _ & R3 & _), TF as (_ & _ & R4 & _).
    split; congruence.
Qed.
End Iff.
