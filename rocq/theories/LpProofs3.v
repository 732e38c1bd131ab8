(** The pivot step, the main loop and LinPro_SolveTable. *)
From Coq Require Import List Arith Lia Bool Ring.
Import ListNotations.
From Verif Require Import Imp Alg LpModel LpSpec LpProofs1 LpProofs2.

Section P.
Variable F : ofield.
Add Ring Fr : (rlaws F).
Local Open Scope K_scope.
Variables n nrow : nat.
Hypothesis Hnr : (2 <= nrow)%nat.
Notation TT := (T F nrow).
Notation EQ_ := (Eq F nrow).
Notation mcn mc i := (nth i mc 0%nat).
Notation basis := (basis F n nrow).
Notation full := (full F n nrow).
Notation sat := (sat F n nrow).
Notation nonbasic := (nonbasic n nrow).
Notation flags := (flags n nrow).
Notation far := (far F n nrow).
Notation leaves := (leaves F n nrow).
Notation optimal := (optimal F n nrow).

Lemma insert_in : forall V k (v : V) m a, In a (map_insert (F := F) k v m) -> a = (k, v) \/ In a m.
Proof.
  induction m as [|(k', v') m IH]; simpl; intros a H. destruct H; auto.
  destruct (oltb k k'). destruct H; auto. destruct (oltb k' k). simpl in H. destruct H; auto. apply IH in H. tauto. auto.
Qed.
Lemma insert_nil : forall V k (v : V) m, map_insert (F := F) k v m <> [].
Proof. intros. destruct m as [|(k', v') m]; simpl. discriminate. destruct (oltb k k'). discriminate. destruct (oltb k' k); discriminate. Qed.

Lemma bound_ok : forall B mc flg, basis B mc -> flags flg mc ->
  wp (bound_index (n +n 1) nrow flg B) (fun m =>
    (forall k q p, In (k, (q, p)) m -> nonbasic mc p /\ lt (TT B n p) 0 /\ exists b, leaves B p q b) /\
    (m = [] -> forall p, nonbasic mc p -> lt (TT B n p) 0 -> far B p)).
Proof.
  intros B mc flg H (L & Fl). pose proof (bs_len _ _ _ _ _ H) as LB. unfold bound_index. rewrite (ncol1 n nrow Hnr).
  apply wp_forn with (I := fun k m =>
    (forall k q p, In (k, (q, p)) m -> nonbasic mc p /\ lt (TT B n p) 0 /\ exists b, leaves B p q b) /\
    (m = [] -> forall p, (p < k)%nat -> nonbasic mc p -> lt (TT B n p) 0 -> far B p)).
  - lia.
  - split. intros k q p []. intros; lia.
  - intros k m Hk (I1 & I2). apply wp_bind. apply wp_vget with (d := 0%nat). lia. destruct (Nat.eqb_spec (nth k flg 0%nat) 0); simpl negb; cbv iota.
    + apply Fl in e; [|lia]. pose proof (ix n nrow Hnr n k ltac:(lia) ltac:(lia)). apply wp_bind. apply wp_vget with (d := 0). lia. fold (T F nrow B n k).
      destruct (oltb (TT B n k) 0) eqn:E; simpl negb; cbv iota.
      * apply wp_bind. eapply wp_mono. apply min_ratio_ok; auto; lia. intros (b, [q|]) Hm; simpl in Hm |- *.
        -- split. 2: { intros E'. apply insert_nil in E'. destruct E'. } intros k' q' p' Hi. apply insert_in in Hi. destruct Hi as [Hi|Hi]; eauto. inversion Hi; subst. split; auto. split; auto. exists b. auto.
        -- split; auto. intros Em p Hp Np Hl. destruct (Nat.eq_dec p k). subst; auto. apply I2; auto. lia.
      * apply wp_some. split; auto. intros Em p Hp Np Hl. destruct (Nat.eq_dec p k). subst. unfold lt in Hl. congruence. apply I2; auto. lia.
    + apply wp_some. split; auto. intros Em p Hp Np Hl. destruct (Nat.eq_dec p k). subst. apply Fl in Np; lia. apply I2; auto. lia.
  - intros m (I1 & I2). split; auto. intros Em p Np Hl. apply I2; auto. destruct Np. lia.
Qed.

Lemma pivot_ok : forall B mc p q b, full B mc -> nonbasic mc p -> leaves B p q b ->
  wp (sweep (n +n 1) nrow q p B) (fun B' => full B' (upd mc q p) /\ forall x, sat B' x <-> sat B x).
Proof.
  intros B mc p q b Hf (Hp & Np) (Hq & Hpos & Hr & Hmin). pose proof (fb _ _ _ _ _ Hf) as H. pose proof (bs_len _ _ _ _ _ H) as L. pose proof (bs_mc _ _ _ _ _ H) as M.
  pose proof (pos_nz F _ Hpos) as Hz. eapply wp_mono. { apply (sweep_ok F nrow Hnr (n +n 1) q p); auto; lia. } intros B' (L' & Eq' & Ei).
  assert (Ecol : forall i j, (i <= n)%nat -> (j < nrow)%nat -> TT B q j = 0 -> TT B' i j = TT B i j).
  { intros i j Hi Hj Ez. assert (Z : TT B' q j = 0). { apply mul_cancel with (TT B q p); auto. rewrite Eq'; auto. }
    destruct (Nat.eq_dec i q). subst. congruence. rewrite Ei by (auto; lia). rewrite Z. ring. }
  assert (Ep : forall i, (i <= n)%nat -> TT B' i p = if i =? q then 1 else 0).
  { assert (O : TT B' q p = 1). { pose proof (Eq' p ltac:(lia)). assert (Z : (TT B' q p - 1) * TT B q p = 0). { transitivity (TT B' q p * TT B q p - TT B q p). ring. rewrite H0. ring. }
      apply mul_cancel in Z; auto. replace (TT B' q p) with (TT B' q p - 1 + 1) by ring. rewrite Z. ring. }
    intros i Hi. destruct (Nat.eqb_spec i q). subst; auto. rewrite Ei by (auto; lia). rewrite O. ring. }
  assert (Eb : TT B' q 0 = b). { apply (ratio_uniq F nrow B p q); auto. unfold ratio. apply Eq'. lia. }
  assert (Hb : le 0 b). { eapply ratio_nonneg; [apply Hr|auto|]. apply (bs_rhs _ _ _ _ _ H). auto. }
  assert (Hun : forall i i', (i <= n)%nat -> (i' <= n)%nat -> i <> q -> TT B' i' (mcn mc i) = TT B i' (mcn mc i)).
  { intros i i' Hi Hi' Hiq. pose proof (bs_rng _ _ _ _ _ H i Hi). apply Ecol; auto; try lia. rewrite (bs_unit _ _ _ _ _ H) by auto. destruct (Nat.eqb_spec q i); congruence. }
  split.
  - split.
    + split; auto.
      * rewrite upd_length. auto.
      * intros i Hi. rewrite nth_upd by lia. destruct (Nat.eq_dec q i). lia. apply (bs_rng _ _ _ _ _ H). auto.
      * rewrite nth_upd_other by lia. apply (bs_last _ _ _ _ _ H).
      * intros i i' Hi Hi'. rewrite nth_upd by lia. destruct (Nat.eq_dec q i). subst. apply Ep. lia. rewrite Hun by (auto; lia). apply (bs_unit _ _ _ _ _ H); auto.
      * intros i Hi. destruct (Nat.eq_dec i q) as [->|]. rewrite Eb. auto. rewrite Ei by (auto; lia). rewrite Eb. destruct (le_or_lt F (TT B i p) 0) as [Hle|Hlt].
        -- replace (TT B i 0 - TT B i p * b) with (TT B i 0 + (- TT B i p) * b) by ring. replace (0 : F) with (0 + 0 : F) by ring. apply le_add2. apply (bs_rhs _ _ _ _ _ H). auto. apply mul_nonneg; auto. apply (proj1 (le_opp F _)). auto.
        -- destruct (odiv_ok F (TT B i 0) (TT B i p) (pos_nz F _ Hlt)) as (z & _ & Ez). pose proof (Hmin i z Hi Hlt Ez). rewrite <- Ez. replace (z * TT B i p - TT B i p * b) with (z * TT B i p - b * TT B i p) by ring.
           apply (proj1 (le_sub F _ _)). apply mul_le; auto. apply lt_le. auto.
    + intros i Hi. rewrite nth_upd by lia. destruct (Nat.eq_dec q i). subst. rewrite Ep by lia. destruct (Nat.eqb_spec n i); auto; lia. rewrite Hun by (auto; lia). apply (fobj _ _ _ _ _ Hf). auto.
    + rewrite <- (bs_last _ _ _ _ _ H). rewrite Hun by lia. rewrite (bs_last _ _ _ _ _ H). apply (ftrg _ _ _ _ _ Hf).
  - assert (Hqe : forall x, EQ_ (TT B' q) x <-> EQ_ (TT B q) x). { intros x. apply (Eq_scale F nrow Hnr _ _ (TT B q p)); auto. }
    intros x. split; intros Hs i Hi.
    + destruct (Nat.eq_dec i q) as [->|]. apply Hqe. apply Hs. lia. rewrite <- (Eq_comb F nrow (TT B' q) _ (TT B i p)). 2: apply Hs; lia.
      rewrite (Eq_ext F nrow Hnr _ (TT B' i)). apply Hs. lia. intros. rewrite (Ei i) by (auto; lia). auto.
    + destruct (Nat.eq_dec i q) as [->|]. apply Hqe. apply Hs. lia. rewrite (Eq_ext F nrow Hnr _ (fun j => TT B i j - TT B i p * TT B' q j)). 2: { intros. rewrite (Ei i) by (auto; lia). auto. }
      apply Eq_comb. apply Hqe. apply Hs. lia. apply Hs. lia.
Qed.

Lemma flags_step : forall B mc flg p q, basis B mc -> flags flg mc -> nonbasic mc p -> (q < n)%nat -> flags (upd (upd flg p 1%nat) (mcn mc q) 0%nat) (upd mc q p).
Proof.
  intros B mc flg p q H (L & Fl) (Hp & Np) Hq. pose proof (bs_mc _ _ _ _ _ H) as M. pose proof (bs_rng _ _ _ _ _ H q ltac:(lia)). split. rewrite !upd_length. auto.
  intros j Hj. rewrite nth_upd by (rewrite upd_length; lia). destruct (Nat.eq_dec (mcn mc q) j).
  - split; auto. intros _. split. lia. intros i Hi. rewrite nth_upd by lia. destruct (Nat.eq_dec q i) as [<-|]. intros E. apply (Np q); [lia|congruence]. rewrite <- e. intros E. apply (basis_inj F n nrow Hnr _ _ H) in E; lia.
  - rewrite nth_upd by lia. destruct (Nat.eq_dec p j).
    + split. discriminate. intros (_ & N). exfalso. apply (N q). lia. rewrite nth_upd_same by lia. auto.
    + rewrite Fl by auto. unfold LpProofs2.nonbasic. split; intros (Hr & N); split; auto; intros i Hi.
      * rewrite nth_upd by lia. destruct (Nat.eq_dec q i); auto.
      * specialize (N i Hi). rewrite nth_upd in N by lia. destruct (Nat.eq_dec q i); auto. subst. auto.
Qed.

(** How the solver stops. *)
Definition stop (nitr : nat) (res nitr' : nat) (B : list F) (mc : list nat) : Prop :=
  (res = 0%nat /\ nitr' = nitr) \/
  (res = 0%nat /\ (nitr' < nitr)%nat /\ optimal B mc) \/
  (res = 2%nat /\ (nitr' < nitr)%nat /\ exists p, nonbasic mc p /\ lt (TT B n p) 0 /\ far B p).

Lemma SolveTable_ok : forall nitr B mc, basis B mc -> TT B n 1 = 1 -> (forall i, (i < n)%nat -> TT B n (mcn mc i) = 0 \/ le e30 (fabs (TT B n (mcn mc i)))) ->
  wp (LinPro_SolveTable nitr B mc (n +n 1) nrow) (fun r => let '(res, nitr', B', mc') := r in
    full B' mc' /\ (forall x, sat B' x <-> sat B x) /\ stop nitr res nitr' B' mc').
Proof.
  intros nitr B mc H H1 Ht. unfold LinPro_SolveTable. apply wp_bind. apply wp_assertb. apply Nat.ltb_lt. lia. apply wp_bind. eapply wp_mono. apply clear_ok; auto.
  intros B1 (F1 & _ & S1). apply wp_bind. eapply wp_mono. apply (flags_ok F n nrow Hnr _ _ (fb _ _ _ _ _ F1)). intros flg Fl. apply wp_bind.
  apply wp_forb with (I := fun k (s : lpst F) => let '(B', mc', flg', r) := s in full B' mc' /\ flags flg' mc' /\ (forall x, sat B' x <-> sat B x) /\ r = None)
    (P := fun s : lpst F => wp (let '(B', mc', _, r) := s in match r with Some (res, itr) => Some (res, itr, B', mc') | None => Some (0%nat, nitr, B', mc') end) (fun r => let '(res, nitr', B', mc') := r in
    full B' mc' /\ (forall x, sat B' x <-> sat B x) /\ stop nitr res nitr' B' mc')).
  - lia.
  - auto.
  - intros k (((B2, mc2), flg2), r2) Hk (F2 & Fl2 & S2 & _). unfold lp_iter. pose proof (fb _ _ _ _ _ F2) as H2. pose proof (bs_len _ _ _ _ _ H2) as L2. pose proof (bs_mc _ _ _ _ _ H2) as M2.
    apply wp_bind. eapply wp_mono. apply check_ok; auto. intros c ->. apply wp_bind. apply wp_assertb; auto.
    apply wp_bind. eapply wp_mono. apply (optim_ok F n nrow Hnr B2 mc2 flg2 H2 Fl2). intros [|] Ho.
    + simpl. split; auto. split; auto. right. left. auto with arith. split; auto. split; auto. lia.
    + apply wp_bind. eapply wp_mono. apply (bound_ok B2 mc2 flg2 H2 Fl2). intros [|(key, (q, p)) m] (I1 & I2).
      * destruct Ho as (j & Nj & Lj). simpl. split; auto. split; auto. right. right. split; auto. split. lia. exists j. split; auto.
      * destruct (I1 key q p) as (Np & Lp & b & Lv). left; auto. destruct Np as (Hp & Np). pose proof Lv as (Hq & Hpos & _). pose proof (ix n nrow Hnr q p ltac:(lia) ltac:(lia)).
        pose proof (bs_rng _ _ _ _ _ H2 q ltac:(lia)). destruct Fl2 as (LF & Fl2).
        apply wp_bind. apply wp_assertb. apply Nat.ltb_lt. lia. apply wp_bind. apply wp_assertb. apply Nat.ltb_lt. lia. apply wp_bind. apply wp_vget with (d := 0). lia. fold (T F nrow B2 q p).
        apply wp_bind. apply wp_assertb. rewrite fabs_pos; auto. apply wp_bind. eapply wp_mono. apply (pivot_ok B2 mc2 p q b); auto. split; auto. intros B3 (F3 & S3).
        apply wp_bind. apply wp_vset. lia. apply wp_bind. apply wp_vget with (d := 0%nat). lia. apply wp_bind. apply wp_vset. rewrite upd_length. lia. apply wp_bind. apply wp_vset. lia. apply wp_some. simpl.
        split; auto. split. apply (flags_step B2); auto. split; auto. split; auto. split; auto. intros x. rewrite S3. apply S2.
  - intros (((B2, mc2), flg2), r2) (F2 & Fl2 & S2 & ->). simpl. split; auto. split; auto. left. auto.
Qed.
End P.
