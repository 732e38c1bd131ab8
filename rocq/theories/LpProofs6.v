(** CLinPro::Precomp. *)
From Coq Require Import List Arith Lia Bool Ring.
Import ListNotations.
From Verif Require Import Imp Alg LpModel LpSpec LpProofs1 LpProofs2 LpProofs3 LpProofs4 LpProofs5.

Section P.
Variable F : ofield.
Add Ring Fr : (rlaws F).
Local Open Scope K_scope.
Variable eqs : list (ceq F).
Notation nq := (length eqs).
Notation nv := (nv F eqs).
Notation nS := (nS F eqs).
Notation nA := (nA F eqs).
Notation rs := (rs F eqs).
Notation sg := (sg F eqs).

Lemma Lf_trunc : forall a b (r x : nat -> F), (1 <= a <= b)%nat -> (forall j, (a <= j < b)%nat -> r j * x j = 0) -> Lf F b r x = Lf F a r x.
Proof. intros. unfold Lf. apply sumn_le_trunc. lia. intros. apply H0. lia. Qed.
Lemma Lf_x1 : forall b (r x : nat -> F) y, (2 <= b)%nat -> r 1%nat = 0 -> Lf F b r (fun j => if j =? 1 then y else x j) = Lf F b r x.
Proof. intros. unfold Lf. replace (b -n 1)%nat with (S (b -n 2)) by lia. rewrite !sumn_S_l. simpl. rewrite H0. ring. Qed.

Lemma art_in_ok : forall lim mc, length mc = (nq +n 1)%nat -> wp (art_in_basis (nq +n 1) lim mc) (fun b => b = false -> forall i, (i <= nq)%nat -> (1 <= nth i mc 0%nat < lim)%nat).
Proof.
  intros lim mc L. unfold art_in_basis. apply wp_forb with (I := fun k b => b = false /\ forall i, (i < k)%nat -> (1 <= nth i mc 0%nat < lim)%nat).
  - lia.
  - split; auto. intros; lia.
  - intros k b Hk (_ & I). apply wp_bind. apply wp_vget with (d := 0%nat). lia. apply wp_some. simpl fst. simpl snd. destruct (Nat.ltb_spec (nth k mc 0%nat) 1), (Nat.leb_spec lim (nth k mc 0%nat)); simpl; try discriminate.
    split; auto. intros i Hi. destruct (Nat.eq_dec i k) as [->|]. lia. apply I. lia.
  - intros b (_ & I) _ i Hi. apply I. lia.
Qed.

Lemma drop_ok : forall nrow nrow1 B, (2 <= nrow1 <= nrow)%nat -> length B = ((nq +n 1) *n nrow)%nat -> wp (drop_art (nq +n 1) nrow nrow1 B) (fun A => length A = ((nq +n 1) *n nrow1)%nat /\
  forall i j, (i <= nq)%nat -> (j < nrow1)%nat -> T F nrow1 A i j = T F nrow B i j).
Proof.
  intros nrow nrow1 B Hn LB. assert (H1 : (2 <= nrow1)%nat) by lia. assert (H2 : (2 <= nrow)%nat) by lia. unfold drop_art.
  apply wp_forn with (I := fun k A => length A = ((nq +n 1) *n nrow1)%nat /\ forall i j, (i < k)%nat -> (j < nrow1)%nat -> T F nrow1 A i j = T F nrow B i j).
  - lia.
  - split. apply vresize_length. intros; lia.
  - intros k A Hk (L & E). apply wp_forn with (I := fun m A' => length A' = ((nq +n 1) *n nrow1)%nat /\ forall i j, (i < S k)%nat -> (j < nrow1)%nat -> ((i < k)%nat \/ (j < m)%nat) -> T F nrow1 A' i j = T F nrow B i j).
    + lia.
    + split; auto. intros. apply E; auto. lia.
    + intros m A' Hm (L' & E'). pose proof (ix nq nrow H2 k m ltac:(lia) ltac:(lia)). pose proof (ix nq nrow1 H1 k m ltac:(lia) ltac:(lia)). apply wp_bind. apply wp_vget with (d := 0). lia. apply wp_vset. lia. split. rewrite upd_length. auto.
      intros i j Hi Hj Hij. rewrite (T_upd F nrow1 H1 _ (nq +n 1)) by (auto; lia). destruct (Nat.eqb_spec i k), (Nat.eqb_spec j m); simpl; try (apply E'; auto; lia). subst. auto.
    + intros A' (L' & E'). split; auto.
  - intros A (L & E). split; auto. intros. apply E; auto. lia.
Qed.

Section Phase1.
Notation nrow := (2 +n nv +n nS +n nA)%nat.
Notation lim := (2 +n nv +n nS)%nat.
Notation TT := (T F (2 +n nv +n nS +n nA)%nat).
Let Hnr : (2 <= nrow)%nat. Proof. lia. Qed.
Variables (A1 A' : list F) (mc' : list nat).
Hypothesis R1 : forall i j, (i < nq)%nat -> (j < nrow)%nat -> TT A1 i j = sg i * rs i j.
Hypothesis Tr : trg1 F eqs nrow A1.
Hypothesis Hf : full F nq nrow A' mc'.
Hypothesis Hs : forall x, sat F nq nrow A' x <-> sat F nq nrow A1 x.

Lemma rows1 : forall i x, (i < nq)%nat -> (Eq F nrow (TT A1 i) x <-> Eq F nrow (rs i) x).
Proof.
  intros i x Hi. symmetry. apply (Eq_scale F nrow Hnr _ _ (sg i)).
  - intros E. pose proof (sg_sq F eqs _ eq_refl i Hi) as X. rewrite E in X. apply (one_zero F). rewrite <- X. ring.
  - intros j Hj. rewrite R1 by auto. ring.
Qed.
Lemma trg_row : forall x : nat -> F, (forall j, (lim <= j < nrow)%nat -> x j = 0) -> (Eq F nrow (TT A1 nq) x <-> x 1%nat = 0).
Proof.
  intros x Hx. destruct Tr as (T0' & T1 & T2 & T3). unfold Eq. rewrite (Lf_pick1 F nrow Hnr _ _ 1) by (try lia; (intros j Hj Hne; destruct (le_lt_dec lim j); [rewrite (Hx j) by lia|rewrite T2 by lia]; ring)).
  rewrite T0', T1. replace (1 * x 1%nat) with (x 1%nat) by ring. tauto.
Qed.
Lemma sat1 : forall x : nat -> F, (forall j, (lim <= j < nrow)%nat -> x j = 0) -> x 1%nat = 0 -> (sat F nq nrow A1 x <-> forall i, (i < nq)%nat -> Eq F nrow (rs i) x).
Proof.
  intros x Hx H1. unfold sat. split; intros H.
  - intros i Hi. apply rows1; auto. apply H. lia.
  - intros i Hi. destruct (Nat.eq_dec i nq) as [->|]. apply trg_row; auto. apply rows1. lia. apply H. lia.
Qed.

(** A feasible point gives a solution of the final table with target value zero. *)
Lemma feas_sat : forall v, feasible eqs v -> exists x, sat F nq nrow A' x /\ (forall j, (2 <= j < nrow)%nat -> le 0 (x j)) /\ (forall j, (lim <= j)%nat -> x j = 0) /\ x 1%nat = 0 /\ (forall k, (k < nv)%nat -> x (2 +n k)%nat = nth k v 0).
Proof.
  intros v Hv. assert (Lv : length v = nv) by apply Hv. apply (init_link F eqs nrow eq_refl v Lv) in Hv. destruct Hv as (x & Hx1 & Hx2 & Hx3 & Hx4 & Hx5). exists x. split; auto. apply Hs. apply sat1; auto. intros. apply Hx3. lia.
Qed.
(** The optimum of the first phase is not positive. *)
Lemma opt_le0 : le (TT A' nq 0) 0.
Proof.
  pose proof (fb _ _ _ _ _ Hf) as Hb. set (y := moved F nq nrow A' mc' 0 0).
  assert (Yb : forall i, (i <= nq)%nat -> y (nth i mc' 0%nat) = TT A' i 0). { intros. unfold y. rewrite (moved_basic F nq nrow Hnr) by auto. ring. }
  assert (Yn : forall j, nonbasic nq nrow mc' j -> y j = 0). { intros. unfold y. rewrite (moved_nonbasic F nq nrow Hnr) by auto. destruct (j =? 0); auto. }
  assert (Sy : sat F nq nrow A1 y). { apply Hs. apply (sat_basic F nq nrow Hnr A' mc'); auto. }
  assert (Py : forall j, (2 <= j < nrow)%nat -> le 0 (y j)). { intros j Hj. destruct (basic_dec nq nrow Hnr mc' j ltac:(lia)) as [(i & Hi & <-)|N]. rewrite Yb by auto. apply (bs_rhs _ _ _ _ _ Hb). destruct (Nat.eq_dec i nq) as [->|]. rewrite (bs_last _ _ _ _ _ Hb) in Hj. lia. lia. rewrite Yn by auto. apply le_refl. }
  specialize (Sy nq (le_n _)). unfold Eq, Lf in Sy. destruct Tr as (T0' & T1 & T2 & T3). replace (nrow -n 1)%nat with (S (nrow -n 2)) in Sy by lia. rewrite sumn_S_l, T0', T1 in Sy.
  assert (E : y 1%nat = TT A' nq 0). { pose proof (Yb nq (le_n _)) as U. rewrite (bs_last _ _ _ _ _ Hb) in U. auto. }
  rewrite <- E. apply (proj2 (le_sub F _ _)). replace (0 - y 1%nat) with (1 * y 1%nat + sumn (nrow -n 2) (fun i => TT A1 nq (S (S i)) * y (S (S i))) - y 1%nat) by (rewrite Sy; auto).
  replace (1 * y 1%nat + sumn (nrow -n 2) (fun i => TT A1 nq (S (S i)) * y (S (S i))) - y 1%nat) with (sumn (nrow -n 2) (fun i => TT A1 nq (S (S i)) * y (S (S i)))) by ring.
  apply sum_nonneg. intros j Hj. apply mul_nonneg. 2: apply Py; lia. destruct (le_lt_dec lim (S (S j))). destruct (T3 (S (S j)) ltac:(lia)) as [->| ->]. apply le_refl. apply lt_le, lt_01. rewrite T2 by lia. apply le_refl.
Qed.
(** If the first phase has converged below zero, nothing is feasible. *)
Lemma infeasible : optimal F nq nrow A' mc' -> TT A' nq 0 <> 0 -> forall v, ~ feasible eqs v.
Proof.
  intros Ho Hne v Hv. apply Hne. apply le_antisym. apply opt_le0. destruct (feas_sat v Hv) as (x & Hx & Hp & _ & H1 & _). rewrite <- H1. apply (optimal_le F nq nrow Hnr A' mc'); auto.
Qed.

(** No artificial variable in the basis: the target row vanishes on the variables and slacks. *)
Hypothesis Hlim : forall i, (i <= nq)%nat -> (1 <= nth i mc' 0%nat < lim)%nat.
Lemma moved_trg : forall p t, (p < lim)%nat -> nonbasic nq nrow mc' p -> TT A' nq 0 - TT A' nq p * t = 0.
Proof.
  intros p t Hp Np. pose proof (fb _ _ _ _ _ Hf) as Hb. pose proof (sat_moved' F nq nrow Hnr A' mc' p t Hf Np) as Hm. apply Hs in Hm. specialize (Hm nq (le_n _)). apply trg_row in Hm.
  - pose proof (moved_basic F nq nrow Hnr A' mc' p t nq Hb (le_n _)) as U. rewrite (bs_last _ _ _ _ _ Hb) in U. rewrite <- U. auto.
  - intros j Hj. rewrite (moved_nonbasic F nq nrow Hnr). destruct (Nat.eqb_spec j p). lia. auto. split. lia. intros i Hi E. specialize (Hlim i Hi). lia.
Qed.
Lemma final_trg0 : TT A' nq 0 = 0.
Proof.
  pose proof (fb _ _ _ _ _ Hf) as Hb. set (y := moved F nq nrow A' mc' 0 0).
  assert (Yb : forall i, (i <= nq)%nat -> y (nth i mc' 0%nat) = TT A' i 0). { intros. unfold y. rewrite (moved_basic F nq nrow Hnr) by auto. ring. }
  assert (Yn : forall j, nonbasic nq nrow mc' j -> y j = 0). { intros. unfold y. rewrite (moved_nonbasic F nq nrow Hnr) by auto. destruct (j =? 0); auto. }
  assert (Sy : sat F nq nrow A1 y). { apply Hs. apply (sat_basic F nq nrow Hnr A' mc'); auto. }
  specialize (Sy nq (le_n _)). apply trg_row in Sy. pose proof (Yb nq (le_n _)) as U. rewrite (bs_last _ _ _ _ _ Hb) in U. congruence.
  intros j Hj. apply Yn. split. lia. intros i Hi E. specialize (Hlim i Hi). lia.
Qed.
Lemma final_trg : forall j, (2 <= j < lim)%nat -> TT A' nq j = 0.
Proof.
  intros j Hj. destruct (basic_dec nq nrow Hnr mc' j ltac:(lia)) as [(i & Hi & <-)|N].
  - rewrite (full_unit F nq nrow Hnr A' mc' Hf) by auto. destruct (Nat.eqb_spec nq i) as [<-|]; auto. rewrite (bs_last _ _ _ _ _ (fb _ _ _ _ _ Hf)) in Hj. lia.
  - pose proof (moved_trg j (- (1)) ltac:(lia) N) as E. rewrite final_trg0 in E. rewrite <- E. ring.
Qed.

Lemma phase1_ready : forall A2 p, length A2 = ((nq +n 1) *n lim)%nat -> (forall i j, (i <= nq)%nat -> (j < lim)%nat -> T F lim A2 i j = TT A' i j) ->
  aEq p = eqs -> neq p = nq -> nvar p = nv -> nslk p = nS -> mcr p = mc' -> tabA p = A2 -> ready F eqs p.
Proof.
  intros A2 p L2 E2 P1 P2 P3 P4 P5 P6. pose proof (fb _ _ _ _ _ Hf) as Hb. assert (Hl2 : (2 <= lim)%nat) by lia.
  assert (Z1 : forall i, (i < nq)%nat -> TT A' i 1 = 0). { intros i Hi. pose proof (bs_unit _ _ _ _ _ Hb nq i ltac:(lia) Hi) as U. rewrite (bs_last _ _ _ _ _ Hb) in U. rewrite U. destruct (Nat.eqb_spec i nq); auto; lia. }
  split; auto; rewrite ?P2, ?P3, ?P4, ?P5, ?P6.
  - split; auto.
    + apply (bs_mc _ _ _ _ _ Hb).
    + apply (bs_last _ _ _ _ _ Hb).
    + intros i i' Hi Hi'. rewrite E2 by (try apply Hlim; lia). apply (bs_unit _ _ _ _ _ Hb); auto.
    + intros i Hi. rewrite E2 by lia. apply (bs_rhs _ _ _ _ _ Hb); auto.
  - intros j Hj. rewrite E2 by lia. apply final_trg. auto.
  - rewrite E2 by lia. apply final_trg0.
  - intros v Lv. split.
    + intros Hv. destruct (feas_sat v Hv) as (x & Hx & Hp & Hz & _ & Hk). exists x. split; [|split; auto].
      * intros i Hi. rewrite (Eq_ext F lim Hl2 _ (TT A' i)) by (intros; apply E2; lia). specialize (Hx i ltac:(lia)). unfold Eq in *. rewrite <- Hx. symmetry. apply Lf_trunc. lia. intros. rewrite Hz by lia. ring.
      * intros j Hj. apply Hp. lia.
    + intros (x & Hx & Hp & Hk). set (x' := fun j => if j =? 1 then 0 else if j <? lim then x j else 0).
      assert (Xz : forall j, (lim <= j)%nat -> x' j = 0). { intros j Hj. unfold x'. destruct (Nat.eqb_spec j 1); auto. destruct (Nat.ltb_spec j lim); auto. lia. }
      assert (X1 : x' 1%nat = 0) by auto.
      assert (Xe : forall j, (2 <= j < lim)%nat -> x' j = x j). { intros j Hj. unfold x'. destruct (Nat.eqb_spec j 1), (Nat.ltb_spec j lim); auto; lia. }
      assert (S' : sat F nq nrow A' x').
      { intros i Hi. unfold Eq. rewrite (Lf_trunc lim nrow) by (try lia; intros; rewrite Xz by lia; ring). destruct (Nat.eq_dec i nq) as [->|].
        - rewrite final_trg0. rewrite (Lf_pick1 F lim Hl2 _ _ 1) by (try lia; intros; rewrite final_trg by lia; ring). rewrite X1. ring.
        - specialize (Hx i ltac:(lia)). unfold Eq in Hx. rewrite E2 in Hx by lia. rewrite <- Hx. unfold Lf. apply sumn_ext. intros j Hj. destruct (Nat.eq_dec j 0) as [->|]. rewrite E2, Z1 by lia. ring. rewrite Xe, E2 by lia. auto. }
      apply Hs in S'. pose proof (proj1 (sat1 x' (fun j Hj => Xz j (proj1 Hj)) X1) S') as S2.
      apply (init_link F eqs nrow eq_refl v Lv). exists x'. split; auto. split; [|split; auto].
      * intros j Hj. destruct (le_lt_dec lim j). rewrite Xz by auto. apply le_refl. rewrite Xe by lia. apply Hp. lia.
      * split; auto. intros k Hk'. rewrite Xe by lia. auto.
Qed.
End Phase1.

(** Precomp on an object whose table is still empty. *)
Lemma Precomp_ok : forall p nitr, aEq p = eqs -> tabA p = [] -> wp (Precomp p nitr) (fun r => let '(res, nitr', p') := r in
  aEq p' = eqs /\
  ((res = 0%nat /\ (ready F eqs p' \/ (nA = 0%nat /\ exists e, In e eqs /\ itype e = GE))) \/
   (res = 2%nat /\ (nitr' < nitr)%nat) \/
   (res = 3%nat /\ ((nitr' < nitr)%nat -> nth (neq p' *n (2 +n nvar p' +n nslk p' +n nart p')) (tabA p') 0 <> 0 -> forall v, ~ feasible eqs v)))).
Proof.
  intros p nitr Hp Ht. unfold Precomp. rewrite Hp, Ht. apply wp_bind. eapply wp_mono. apply count_ok. intros ((((a, b), c), ms), ma) (-> & -> & -> & Hms & Hma). set (nrow := (2 +n nv +n nS +n nA)%nat).
  assert (Hnr : (2 <= nrow)%nat) by (unfold nrow; lia). apply wp_bind. eapply wp_mono.
  { apply (fill_ok F eqs nrow eq_refl ms ma _ Hms Hma). apply vresize_length. intros. unfold T, vresize. rewrite firstn_nil. simpl app. apply nth_repeat. }
  intros A0 (L0 & E0). apply wp_bind. eapply wp_mono. apply (slack_ok F eqs nrow eq_refl ms Hms). intros mcs (Lm & En & Em). destruct (Nat.eqb_spec nA 0).
  - apply wp_some. split; auto. left. split; auto. destruct (existsb (fun e => match itype e with GE => true | _ => false end) eqs) eqn:Eg.
    + right. apply existsb_exists in Eg. destruct Eg as (e' & He & Hg). split; auto. exists e'. split; auto. destruct (itype e'); auto; discriminate.
    + left. assert (Hge : forall i, (i < nq)%nat -> itype (eqn F eqs i) <> GE). { intros i Hi E. assert (existsb (fun e => match itype e with GE => true | _ => false end) eqs = true). apply existsb_exists. exists (eqn F eqs i). split. apply nth_In; auto. rewrite E. auto. congruence. }
      assert (HA : forall i, (i < nq)%nat -> isA F (eqn F eqs i) = false). { intros i Hi. destruct (isA F (eqn F eqs i)) eqn:E; auto. pose proof (cnt_lt F eqs (isA F) i nq Hi ltac:(lia) E). unfold LpProofs5.nA in e. lia. }
      assert (Hty : forall i, (i < nq)%nat -> itype (eqn F eqs i) = LE). { intros i Hi. specialize (HA i Hi). specialize (Hge i Hi). unfold isA in HA. destruct (itype (eqn F eqs i)); auto; congruence. }
      assert (Hsg : forall i, (i < nq)%nat -> sg i = 1). { intros i Hi. rewrite (sg_val F eqs _ eq_refl i Hi). rewrite HA by auto. unfold sS. rewrite Hty by auto. auto. }
      assert (Enr : nrow = (2 +n nv +n nS)%nat) by (unfold nrow; lia).
      assert (Er : forall i j, (i < nq)%nat -> (j < nrow)%nat -> T F nrow A0 i j = rs i j). { intros. rewrite E0 by lia. replace (i <? nq) with true by (symmetry; apply Nat.ltb_lt; lia). auto. }
      split; cbn [aEq neq nvar nslk nart mcr tabA]; auto; rewrite <- ?Enr.
      * apply (init_basis F eqs nrow eq_refl); auto. intros. rewrite Er, Hsg by auto. ring. intros i Hi. rewrite Em by auto. unfold mc0. rewrite HA by auto. rewrite (not_A_S F) by (apply HA; auto). auto.
      * intros j Hj. rewrite E0 by lia. rewrite Nat.ltb_irrefl. auto.
      * rewrite E0 by lia. rewrite Nat.ltb_irrefl. auto.
      * intros v Lv. rewrite (init_link F eqs nrow eq_refl v Lv). split.
        -- intros (x & X1 & X2 & X3 & X4 & X5). exists x. split; auto. intros i Hi. rewrite (Eq_ext F nrow Hnr _ (rs i)); auto.
        -- intros (x & X1 & X2 & X3). exists (fun j => if j =? 1 then 0 else if j <? nrow then x j else 0). split; [|split; [|split; [|split]]]; auto.
           ++ intros i Hi. specialize (X1 i Hi). rewrite (Eq_ext F nrow Hnr _ (rs i)) in X1 by auto. unfold Eq in *. rewrite <- X1. unfold Lf. apply sumn_ext. intros j Hj. destruct (Nat.eqb_spec (S j) 1).
              replace (S j) with 1%nat by lia. rewrite (rs_1 F eqs _ eq_refl) by auto. ring. destruct (Nat.ltb_spec (S j) nrow). auto. lia.
           ++ intros j Hj. destruct (Nat.eqb_spec j 1). lia. destruct (Nat.ltb_spec j nrow). apply X2; auto. lia.
           ++ intros j Hj. destruct (Nat.eqb_spec j 1); auto. destruct (Nat.ltb_spec j nrow); auto. lia.
           ++ intros k Hk. destruct (Nat.eqb_spec (2 +n k) 1). lia. destruct (Nat.ltb_spec (2 +n k) nrow). apply X3; auto. lia.
  - apply wp_bind. eapply wp_mono. apply (art_ok F eqs nrow eq_refl ma A0 mcs); auto. intros (A1, mc1) (L1 & R1 & Tr & Lm1 & En1 & Em1). simpl fst in *. simpl snd in *.
    apply wp_bind. eapply wp_mono. apply (flip_ok F eqs nrow eq_refl A1 mc1); auto. apply Tr. intros A2 (L2 & R2 & N2).
    assert (Tr2 : trg1 F eqs nrow A2). { destruct Tr as (Q0 & Q1 & Q2 & Q3). split; [|split; [|split]]; intros; rewrite N2 by lia; auto. }
    assert (Hb : basis F nq nrow A2 mc1) by (apply (init_basis F eqs nrow eq_refl); auto).
    apply wp_bind. eapply wp_mono. apply (check_ok F nq nrow Hnr _ _ Hb). intros ? ->. apply wp_bind. apply wp_assertb; auto. apply wp_bind. eapply wp_mono.
    { apply (SolveTable_ok F nq nrow Hnr nitr A2 mc1 Hb). apply Tr2. intros i Hi. rewrite Em1 by auto. pose proof (mc0_rng F eqs nrow eq_refl i Hi). destruct Tr2 as (_ & _ & Q2 & Q3).
      destruct (le_lt_dec (2 +n nv +n nS) (mc0 F eqs i)). destruct (Q3 (mc0 F eqs i) ltac:(lia)) as [E|E]. left; auto. right. rewrite E, fabs1. apply lt_le. apply e30_1. left. apply Q2. lia. }
    intros (((res, nitr'), A3), mc3) (Hf & Hs & Hst). pose proof (fb _ _ _ _ _ Hf) as Hb3. pose proof (bs_len _ _ _ _ _ Hb3) as L3. apply wp_bind. eapply wp_mono. apply (check_ok F nq nrow Hnr _ _ Hb3). intros ? ->. apply wp_bind. apply wp_assertb; auto.
    destruct (Nat.eqb_spec res 2).
    + apply wp_some. split; auto. right. left. split; auto. destruct Hst as [(? & ?)|[(? & ?)|(? & ? & ?)]]; try lia.
    + apply wp_bind. eapply wp_mono. apply art_in_ok. apply (bs_mc _ _ _ _ _ Hb3). intros bad Hbad. destruct bad.
      * apply wp_some. split; auto. right. right. split; auto. cbn [aEq neq nvar nslk nart mcr tabA]. fold nrow. rewrite (T0 F nrow). intros Hn Hne. destruct Hst as [(? & ?)|[(? & ? & Ho)|(? & ? & ?)]]; try lia.
        apply (infeasible A2 A3 mc3); auto.
      * specialize (Hbad eq_refl). replace (nq +n 1 -n 1)%nat with nq by lia. apply wp_bind. pose proof (ix0 nq nrow Hnr nq ltac:(lia)). apply wp_vget with (d := 0). lia. rewrite (T0 F nrow).
        apply wp_bind. apply wp_assertb. { assert (Z : T F nrow A3 nq 0 = 0) by (apply (final_trg0 A2 A3 mc3); auto). rewrite Z. rewrite fabs0. apply e8_pos. }
        apply wp_bind. eapply wp_mono. apply (drop_ok nrow (2 +n nv +n nS) A3); auto. unfold nrow. lia. intros A4 (L4 & E4). apply wp_some. split; auto. left. split; auto. left.
        apply (phase1_ready A2 A3 mc3 R2 Tr2 Hf Hs Hbad A4); auto.
Qed.
End P.
