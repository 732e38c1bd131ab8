(** The fan of the removed point. *)
From Coq Require Import List Arith Lia Bool Relations.
Import ListNotations.
From Verif Require Import Imp DtriModel DtriSpec CollModel CollSpec DtriProofs1 DtriProofs2 DtriProofs4 CollProofs1 CollProofs2.

Lemma twin_vc : forall m t i j k, tri_ok m -> t < length m -> twin m t i j k -> j < length m.
Proof. intros m t i j k Hm Ht HT. apply (L_lt m t i); auto; apply HT. Qed.
(** a twin seen as a turn *)
Lemma twin_turn : forall m t i j k, twin m t i j k -> turn m (t, pv i) (j, nx k).
Proof. intros m t i j k HT. exists k. cbn. rewrite nx_pv; [auto|apply HT]. Qed.
Lemma two_links : forall m t i j x, tri_ok m -> t < length m -> i < 3 -> j < 3 -> L m t i = Some x -> L m t j = Some x -> i = j.
Proof. intros m t i j x Hm Ht Hi Hj E1 E2. destruct (Hm t Ht) as (_ & Q & _). apply Q; congruence. Qed.

Section Fan.
Variables (m : list dtri) (A e B k C c F f : nat).
Hypothesis Hm : tri_ok m.
Hypothesis HA : A < length m.
Hypothesis TB : twin m A e B k.
Hypothesis TC : twin m A (nx e) C c.
Hypothesis TF : twin m B (pv k) F f.
Let zA := (A, pv e). Let zB := (B, nx k). Let zC := (C, pv c). Let zF := (F, nx f).
Let Z := V m A (pv e).

Lemma fe : e < 3. Proof. apply TB. Qed.
Lemma fk : k < 3. Proof. apply TB. Qed.
Lemma fc : c < 3. Proof. apply TC. Qed.
Lemma ff : f < 3. Proof. apply TF. Qed.
Lemma fB : B < length m. Proof. apply (twin_vc m A e B k); auto. Qed.
Lemma fC : C < length m. Proof. apply (twin_vc m A (nx e) C c); auto. Qed.
Lemma fF : F < length m. Proof. apply (twin_vc m B (pv k) F f); auto using fB. Qed.
Hint Resolve fe fk fc ff fB fC fF : core.
Lemma fAB : A <> B. Proof. intros E. apply (no_self m A e); auto. rewrite E at 2. apply TB. Qed.
Lemma fAC : C <> A. Proof. intros E. apply (no_self m A (nx e)); auto. rewrite <- E at 2. apply TC. Qed.
Lemma fBC : C <> B.
Proof. intros E. apply (nx_ne e); auto. apply (two_links m A (nx e) e B); auto; [rewrite <- E; apply TC|apply TB]. Qed.
Lemma fBF : F <> B. Proof. intros E. apply (no_self m B (pv k)); auto. rewrite <- E at 2. apply TF. Qed.
Lemma fAF : F <> A.
Proof. intros E. apply (pv_ne k); auto. apply (two_links m B (pv k) k A); auto; [rewrite <- E; apply TF|apply TB]. Qed.

Lemma vzA : vc m zA. Proof. split; cbn; auto. Qed.
Lemma vzB : vc m zB. Proof. split; cbn; auto. Qed.
Lemma vzC : vc m zC. Proof. split; cbn; auto. Qed.
Lemma vzF : vc m zF. Proof. split; cbn; auto. Qed.
Hint Resolve vzA vzB vzC vzF : core.
Lemma tCA : turn m zC zA.
Proof. pose proof (twin_turn _ _ _ _ _ (twin_sym _ _ _ _ _ TC)) as T. rewrite nx_nx in T by auto. exact T. Qed.
Lemma tAB : turn m zA zB. Proof. apply twin_turn. exact TB. Qed.
Lemma tBF : turn m zB zF.
Proof. pose proof (twin_turn _ _ _ _ _ TF) as T. rewrite pv_pv in T by auto. exact T. Qed.
Lemma PA : P m zA = Z. Proof. reflexivity. Qed.
Lemma PB : P m zB = Z. Proof. rewrite (turn_P m zA zB); auto using tAB. Qed.
Lemma PC : P m zC = Z. Proof. rewrite <- (turn_P m zC zA); auto using tCA. Qed.
Lemma PF : P m zF = Z. Proof. rewrite (turn_P m zB zF); auto using tBF, PB. Qed.
Lemma nFA : zF <> zA. Proof. intros E. inversion E. apply fAF; auto. Qed.
Lemma nFB : zF <> zB. Proof. intros E. inversion E. apply fBF; auto. Qed.

Lemma last_app : forall l (x : nat * nat) y, lastc x (l ++ [y]) = y.
Proof. intros. unfold lastc. rewrite app_comm_cons. apply last_last. Qed.

Lemma fan_cases :
  (coll_ring Z F (nx f) C m = Some None /\ exists s j, around m zA (s, j) /\ L m s (nx j) = None) \/
  (exists l, path m zF l /\ lastc zF l = zC /\ NoDup (zF :: l ++ [zA; zB]) /\
     (forall x, around m zA x <-> In x (zF :: l ++ [zA; zB])) /\
     (forall s j, around m zA (s, j) -> L m s (nx j) <> None) /\
     (coll_ring Z F (nx f) C m = Some (Some (map (far m) (match l with [] => [zC; zA; zB] | _ => removelast (zF :: l) end))))).
Proof.
  destruct (orbit m Hm zF vzF) as (l0 & Hp & Hd & Hend).
  pose proof (path_len m Hm l0 zF vzF Hp Hd) as Hlen.
  assert (ArF : around m zA zF) by (apply rt_trans with zB; apply rt_step; [apply tAB|apply tBF]).
  rewrite coll_ring_eq. fold zF. change (F, nx f) with zF.
  destruct Hend as [Hend|Hend].
  - left. split.
    + assert (NC : forall x, In x l0 -> fst x <> C).
      { intros x Hx E. destruct (path_vc m Hm l0 zF vzF Hp x (or_intror Hx)) as (Vx & Px).
        assert (E' : x = zC) by (apply (corner_eq m Hm); auto; rewrite Px, PF, PC; auto). rewrite E' in Hx. clear E' E Vx Px.
        assert (S1 : forall y y', In y (zF :: l0) -> turn m y y' -> In y' l0).
        { intros y y' Hy Ty. destruct (path_step m l0 zF y Hp Hy) as [->|(w & Hw & Tw)].
          - apply turn_link in Ty. congruence.
          - assert (y' = w) by (apply (turn_fun m Hm y); auto; apply (path_vc m Hm l0 zF vzF Hp y Hy)). subst; auto. }
        pose proof (S1 _ _ (or_intror Hx) tCA) as I1. pose proof (S1 _ _ (or_intror I1) tAB) as I2.
        pose proof (S1 _ _ (or_intror I2) tBF) as I3. inversion Hd; auto. }
      destruct (ring_run m Hm Z C l0 zF (S (length m)) [] false vzF PF Hp NC ltac:(lia)) as (R & _).
      rewrite (R Hend). reflexivity.
    + exists (fst (lastc zF l0)), (snd (lastc zF l0)). split; [|exact Hend].
      rewrite <- surjective_pairing. apply rt_trans with zF; auto. apply (path_around m l0 zF Hp). apply lastc_in.
  - right.
    assert (HB : lastc zF l0 = zB).
    { apply (turn_inj m Hm _ _ zF); auto using tBF. apply (path_vc m Hm l0 zF vzF Hp). apply lastc_in. }
    destruct (exists_last (l := l0)) as (l1 & b & ->).
    { intros ->. unfold lastc in HB. cbn in HB. apply nFB; auto. }
    rewrite last_app in HB. subst b. apply path_app in Hp. destruct Hp as (Hp1 & Tb & _).
    assert (HA' : lastc zF l1 = zA).
    { apply (turn_inj m Hm _ _ zB); auto using tAB. apply (path_vc m Hm l1 zF vzF Hp1). apply lastc_in. }
    destruct (exists_last (l := l1)) as (l & a & ->).
    { intros ->. unfold lastc in HA'. cbn in HA'. apply nFA; auto. }
    rewrite last_app in HA'. subst a. apply path_app in Hp1. destruct Hp1 as (Hp2 & Ta & _).
    assert (HC' : lastc zF l = zC).
    { apply (turn_inj m Hm _ _ zA); auto using tCA. apply (path_vc m Hm l zF vzF Hp2). apply lastc_in. }
    rewrite <- app_assoc in Hd, Hlen. cbn [app] in Hd.
    assert (Hpath : path m zF (l ++ [zA; zB])).
    { apply path_app. split; auto. rewrite HC'. cbn. auto using tCA, tAB. }
    assert (Hclose : turn m (lastc zF (l ++ [zA; zB])) zF).
    { change [zA; zB] with ([zA] ++ [zB]). rewrite app_assoc, last_app. apply tBF. }
    exists l. split; [auto|]. split; [auto|]. split; [auto|].
    assert (Har : forall x, around m zA x <-> In x (zF :: l ++ [zA; zB])).
    { intros x. rewrite <- (orbit_around m Hm zF _ vzF Hpath Hclose). split; intros H.
      - apply rt_trans with zA; auto. apply (path_around m _ zF Hpath). right. apply in_or_app. right; left; auto.
      - apply rt_trans with zF; auto. }
    split; [exact Har|]. split.
    { intros s j H. apply Har in H. destruct (path_step m _ zF (s, j) Hpath H) as [E|(y & _ & Ty)].
      - rewrite <- E in Hclose. apply turn_link in Hclose. cbn in Hclose. congruence.
      - apply turn_link in Ty. cbn in Ty. congruence. }
    destruct l as [|l1 ll].
    + unfold lastc in HC'. cbn in HC'.
      destruct (ring_run m Hm Z C [zA; zB] zF (S (length m)) [] false vzF PF Hpath) as (_ & R).
      { intros x [<-|[<-|[]]]; cbn; [apply not_eq_sym, fAC|apply not_eq_sym, fBC]. }
      { cbn in *. lia. }
      specialize (R zF Hclose). rewrite R; [|rewrite HC'; reflexivity]. cbn [bind app]. rewrite HC'. reflexivity.
    + destruct (exists_last (l := l1 :: ll)) as (l' & y & El); [discriminate|]. rewrite El in *.
      rewrite last_app in HC'. subst y. apply path_app in Hp2. destruct Hp2 as (Hp3 & Tc & _).
      destruct (ring_run m Hm Z C l' zF (S (length m)) [] false vzF PF Hp3) as (_ & R).
      { intros x Hx E. destruct (path_vc m Hm l' zF vzF Hp3 x (or_intror Hx)) as (Vx & Px).
        assert (E' : x = zC) by (apply (corner_eq m Hm); auto; rewrite Px, PF, PC; auto). rewrite E' in Hx. clear E' E Vx Px.
        inversion Hd as [|? ? _ Hd2]; subst. rewrite <- app_assoc in Hd2. apply NoDup_remove_2 in Hd2. apply Hd2.
        apply in_or_app. left; auto. }
      { rewrite !app_length in Hlen. lia. }
      rewrite (R zC Tc eq_refl). cbn [bind app]. destruct l' as [|q l']; [|]; cbn [app].
      * reflexivity.
      * assert (ER : removelast (zF :: q :: l' ++ [zC]) = zF :: q :: l') by (rewrite !app_comm_cons; apply removelast_last).
        rewrite ER. reflexivity.
Qed.
End Fan.
