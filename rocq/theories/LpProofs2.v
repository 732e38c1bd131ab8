(** The simplex iterations keep the solution set and the feasibility of the basis. *)
From Coq Require Import List Arith Lia Bool Ring.
Import ListNotations.
From Verif Require Import Imp Alg LpModel LpSpec LpProofs1.

Section P.
Variable F : ofield.
Add Ring Fr : (rlaws F).
Local Open Scope K_scope.
Variables n nrow : nat.
Hypothesis Hnr : (2 <= nrow)%nat.
Notation TT := (T F nrow).
Notation EQ_ := (Eq F nrow).
Notation mcn mc i := (nth i mc 0%nat).

(** A table with a feasible basis; the target row (row [n]) is free. *)
Record basis (B : list F) (mc : list nat) : Prop := mkB {
  bs_len : length B = ((n +n 1) *n nrow)%nat;
  bs_mc : length mc = (n +n 1)%nat;
  bs_rng : forall i, (i <= n)%nat -> (1 <= mcn mc i < nrow)%nat;
  bs_last : mcn mc n = 1%nat;
  bs_unit : forall i i', (i <= n)%nat -> (i' < n)%nat -> TT B i' (mcn mc i) = if i' =? i then 1 else 0;
  bs_rhs : forall i, (i < n)%nat -> le 0 (TT B i 0) }.
Record full (B : list F) (mc : list nat) : Prop := mkFull {
  fb : basis B mc;
  fobj : forall i, (i < n)%nat -> TT B n (mcn mc i) = 0;
  ftrg : TT B n 1 = 1 }.
Definition sat (B : list F) (x : nat -> F) : Prop := forall i, (i <= n)%nat -> EQ_ (TT B i) x.
Definition nonbasic (mc : list nat) (j : nat) : Prop := (1 <= j < nrow)%nat /\ forall i, (i <= n)%nat -> mcn mc i <> j.

Lemma basis_inj : forall B mc, basis B mc -> forall i i', (i <= n)%nat -> (i' <= n)%nat -> mcn mc i = mcn mc i' -> i = i'.
Proof.
  intros B mc H i i' Hi Hi' E. destruct (Nat.eq_dec i i') as [|N]; auto. exfalso.
  assert (forall a b, (a <= n)%nat -> (b <= n)%nat -> (a < n)%nat -> a <> b -> mcn mc a = mcn mc b -> False).
  { intros a b Ha Hb Ha' Hab E'. pose proof (bs_unit _ _ H b a Hb Ha'). pose proof (bs_unit _ _ H a a Ha Ha'). rewrite E' in H1. rewrite H0 in H1.
    rewrite Nat.eqb_refl in H1. destruct (Nat.eqb_spec a b); [congruence|]. symmetry in H1. apply (one_zero F) in H1. auto. }
  destruct (Nat.eq_dec i n); [apply (H0 i' i)|apply (H0 i i')]; auto; lia.
Qed.

Lemma ncol1 : (n +n 1 -n 1 = n)%nat. Proof. lia. Qed.
Lemma ix : forall i j, (i <= n)%nat -> (j < nrow)%nat -> (i *n nrow +n j < (n +n 1) *n nrow)%nat.
Proof. intros. apply idx_lt; lia. Qed.
Lemma ix0 : forall i, (i <= n)%nat -> (i *n nrow < (n +n 1) *n nrow)%nat.
Proof. intros. pose proof (ix i 0 H ltac:(lia)). lia. Qed.
Lemma T0 : forall B i, nth (i *n nrow) B 0 = TT B i 0. Proof. intros. unfold T. rewrite Nat.add_0_r. auto. Qed.

Lemma check_ok : forall B mc, basis B mc -> wp (LinPro_CheckTable B mc (n +n 1) nrow) (fun b => b = true).
Proof.
  intros B mc H. pose proof (bs_len _ _ H) as L. pose proof (bs_mc _ _ H) as M. unfold LinPro_CheckTable.
  apply wp_bind. apply wp_assertb. apply Nat.eqb_eq. auto.
  apply wp_bind. apply wp_assertb. apply Nat.eqb_eq. auto.
  apply wp_bind. apply wp_assertb. apply Nat.ltb_lt. lia.
  apply wp_bind. apply wp_forn with (I := fun k flg => length flg = nrow /\ forall i, (k <= i <= n)%nat -> nth (mcn mc i) flg 0%nat = 0%nat).
  - lia.
  - split. apply repeat_length. intros. rewrite nth_repeat. auto.
  - intros k flg Hk (Lf & E). pose proof (bs_rng _ _ H k ltac:(lia)). apply wp_bind. apply wp_vget with (d := 0%nat). lia. apply wp_bind. apply wp_assertb. apply Nat.ltb_lt. lia.
    apply wp_bind. apply wp_vget with (d := 0%nat). lia. apply wp_bind. apply wp_assertb. rewrite E by lia. auto. apply wp_vset. lia. split. rewrite upd_length. auto.
    intros. rewrite nth_upd_other. apply E. lia. intros E'. apply (basis_inj _ _ H) in E'; lia.
  - intros _ _. apply wp_bind. apply wp_forb with (I := fun _ b => b = true); auto. lia.
    + intros j b Hj _. pose proof (bs_rng _ _ H j ltac:(lia)). apply wp_bind. apply wp_vget with (d := 0%nat). lia. apply wp_bind.
      apply wp_forb with (I := fun _ b => b = true); auto. lia.
      * intros i b' Hi _. rewrite ncol1 in Hi. pose proof (ix i (mcn mc j) ltac:(lia) ltac:(lia)). apply wp_bind. apply wp_vget with (d := 0). lia. fold (T F nrow B i (mcn mc j)).
        rewrite (bs_unit _ _ H) by lia. destruct (Nat.eqb_spec i j).
        -- subst. apply wp_bind. apply wp_assertb. replace (1 - 1) with (0 : F) by ring. rewrite fabs0. apply e30_pos.
           pose proof (ix0 j ltac:(lia)). apply wp_bind. apply wp_vget with (d := 0). lia. rewrite T0. destruct (Nat.eqb_spec j (n +n 1 -n 1)). lia.
           pose proof (bs_rhs _ _ H j ltac:(lia)). assert (lt (- e10) (TT B j 0)). { eapply lt_le_trans; [|apply H3]. apply opp_le0. apply e10_pos. }
           pose proof (lt_le _ _ _ H4) as H5. unfold le in H5. rewrite H5. apply wp_bind. apply wp_assertb. auto. apply wp_some. reflexivity.
        -- apply wp_bind. apply wp_assertb. rewrite fabs0. apply e10_pos. apply wp_some. reflexivity.
      * intros r ->. apply wp_some. reflexivity.
Qed.

Lemma clear_ok : forall B mc, basis B mc -> TT B n 1 = 1 -> (forall i, (i < n)%nat -> TT B n (mcn mc i) = 0 \/ le e30 (fabs (TT B n (mcn mc i)))) ->
  wp (clear_target (n +n 1) nrow mc B) (fun B' => full B' mc /\ (forall i j, (i < n)%nat -> (j < nrow)%nat -> TT B' i j = TT B i j) /\ (forall x, sat B' x <-> sat B x)).
Proof.
  intros B mc H H1 Ht. pose proof (bs_len _ _ H) as L. pose proof (bs_mc _ _ H) as M. unfold clear_target. rewrite ncol1.
  apply wp_forn with (I := fun k B' => length B' = ((n +n 1) *n nrow)%nat /\ (forall i j, (i < n)%nat -> (j < nrow)%nat -> TT B' i j = TT B i j) /\
    (forall i, (i < n)%nat -> TT B' n (mcn mc i) = if i <? k then 0 else TT B n (mcn mc i)) /\ TT B' n 1 = 1 /\ (forall x, sat B' x <-> sat B x)).
  - lia.
  - split; auto. split; auto. split; auto. split; auto. tauto.
  - intros k B' Hk (L' & R & O & H1' & S'). pose proof (bs_rng _ _ H k ltac:(lia)) as Hr.
    pose proof (ix k (mcn mc k) ltac:(lia) ltac:(lia)). pose proof (ix n (mcn mc k) ltac:(lia) ltac:(lia)).
    apply wp_bind. apply wp_vget with (d := 0%nat). lia. apply wp_bind. apply wp_vget with (d := 0). lia. apply wp_bind. apply wp_vget with (d := 0). lia.
    fold (T F nrow B' k (mcn mc k)). fold (T F nrow B' n (mcn mc k)). rewrite (R k), (bs_unit _ _ H), Nat.eqb_refl by lia. rewrite (O k) by lia.
    replace (k <? k) with false by (symmetry; apply Nat.ltb_ge; lia). destruct (oltb (fabs (TT B n (mcn mc k))) e30) eqn:E.
    + apply wp_some. split; auto. split; auto. split. 2: split; auto.
      intros i Hi. rewrite O by auto. destruct (Nat.ltb_spec i k), (Nat.ltb_spec i (S k)); auto; try lia. replace i with k by lia. destruct (Ht k ltac:(lia)); auto. unfold le in H3. congruence.
    + apply wp_bind. apply wp_assertb. rewrite fabs1. apply e30_1. destruct (odiv_ok F (TT B n (mcn mc k)) 1 (one_zero F)) as (z & -> & Ez). apply wp_bind. apply wp_some.
      assert (z = TT B n (mcn mc k)) as ->. { rewrite <- Ez. ring. } clear Ez.
      eapply wp_mono. apply (row_sub_ok F nrow Hnr (n +n 1)); auto; lia. intros B2 (L2 & E2). split; auto.
      assert (R2 : forall i j, (i < n)%nat -> (j < nrow)%nat -> TT B2 i j = TT B i j). { intros. rewrite E2 by auto. destruct (Nat.eqb_spec i n). lia. auto. }
      assert (N2 : forall j, (j < nrow)%nat -> TT B2 n j = TT B' n j - TT B n (mcn mc k) * TT B k j). { intros. rewrite E2, Nat.eqb_refl by auto. rewrite (R k j) by lia. auto. }
      split; auto. split; [|split].
      * intros i Hi. pose proof (bs_rng _ _ H i ltac:(lia)). rewrite N2, O, (bs_unit _ _ H i k) by lia. destruct (Nat.eqb_spec k i).
        -- subst. replace (i <? i) with false by (symmetry; apply Nat.ltb_ge; lia). replace (i <? S i) with true by (symmetry; apply Nat.ltb_lt; lia). ring.
        -- destruct (Nat.ltb_spec i k), (Nat.ltb_spec i (S k)); try lia; ring.
      * rewrite N2, H1' by lia. rewrite <- (bs_last _ _ H). rewrite (bs_unit _ _ H n k) by lia. destruct (Nat.eqb_spec k n). lia. ring.
      * intros x. rewrite <- S'. split; intros Hs i Hi.
        -- assert (Hlo : forall a, (a < n)%nat -> EQ_ (TT B' a) x). { intros a Ha. rewrite (Eq_ext F nrow Hnr _ (TT B2 a)). apply Hs. lia. intros. rewrite R, R2; auto. }
           destruct (Nat.eq_dec i n). 2: apply Hlo; lia. subst. rewrite <- (Eq_comb F nrow (TT B k) _ (TT B n (mcn mc k))).
           rewrite (Eq_ext F nrow Hnr _ (TT B2 n)). apply Hs. lia. intros. rewrite N2; auto. rewrite (Eq_ext F nrow Hnr _ (TT B' k)). apply Hlo. lia. intros. rewrite R; auto; lia.
        -- destruct (Nat.eq_dec i n).
           ++ subst. rewrite (Eq_ext F nrow Hnr _ (fun j => TT B' n j - TT B n (mcn mc k) * TT B k j)) by auto. apply Eq_comb. rewrite (Eq_ext F nrow Hnr _ (TT B' k)). apply Hs. lia. intros. rewrite R; auto; lia. apply Hs. lia.
           ++ rewrite (Eq_ext F nrow Hnr _ (TT B' i)). apply Hs. lia. intros. rewrite R, R2; auto; lia.
  - intros B' (L' & R & O & H1' & S'). split; [|split]; auto. split; auto.
    + split; auto. apply (bs_rng _ _ H). apply (bs_last _ _ H). intros. pose proof (bs_rng _ _ H i H0). rewrite R by lia. apply (bs_unit _ _ H); auto. intros. rewrite R by lia. apply (bs_rhs _ _ H); auto.
    + intros. rewrite O by auto. replace (i <? n) with true by (symmetry; apply Nat.ltb_lt; lia). auto.
Qed.

Definition flags (flg mc : list nat) : Prop := length flg = nrow /\ forall j, (j < nrow)%nat -> (nth j flg 0%nat = 0%nat <-> nonbasic mc j).

Lemma flags_ok : forall B mc, basis B mc -> wp (set_flags (n +n 1) nrow mc) (fun flg => flags flg mc).
Proof.
  intros B mc H. unfold set_flags. pose proof (bs_mc _ _ H) as M. apply wp_bind.
  apply wp_forn with (I := fun k flg => length flg = nrow /\ forall j, (j < nrow)%nat -> (nth j flg 0%nat = 0%nat <-> forall i, (i < k)%nat -> mcn mc i <> j)).
  - lia.
  - split. apply repeat_length. intros. rewrite nth_repeat. split; auto. intros; lia.
  - intros k flg Hk (L & E). pose proof (bs_rng _ _ H k ltac:(lia)). apply wp_bind. apply wp_vget with (d := 0%nat). lia. apply wp_vset. lia. split. rewrite upd_length. auto.
    intros j Hj. rewrite nth_upd by lia. destruct (Nat.eq_dec (mcn mc k) j).
    + split; intros. discriminate. exfalso. apply (H1 k); auto.
    + rewrite E by auto. split; intros. destruct (Nat.eq_dec i k). subst; auto. apply H1. lia. apply H1. lia.
  - intros flg (L & E). apply wp_vset. lia. split. rewrite upd_length. auto. intros j Hj. rewrite nth_upd by lia. destruct (Nat.eq_dec 0 j).
    + subst. unfold nonbasic. split; intros. discriminate. lia.
    + rewrite E by auto. unfold nonbasic. split; intros. split. lia. intros. apply H0. lia. apply H0. lia.
Qed.

Definition optimal (B : list F) (mc : list nat) : Prop := forall j, nonbasic mc j -> le 0 (TT B n j).
Lemma optim_ok : forall B mc flg, basis B mc -> flags flg mc ->
  wp (is_optim (n +n 1) nrow flg B) (fun o => if o : bool then optimal B mc else exists j, nonbasic mc j /\ lt (TT B n j) 0).
Proof.
  intros B mc flg H (L & Fl). pose proof (bs_len _ _ H) as LB. unfold is_optim. rewrite ncol1.
  apply wp_forn with (I := fun k (o : bool) => if o then forall j, (j < k)%nat -> nonbasic mc j -> le 0 (TT B n j) else exists j, nonbasic mc j /\ lt (TT B n j) 0).
  - lia.
  - intros; lia.
  - intros k o Hk I. apply wp_bind. apply wp_vget with (d := 0%nat). lia. destruct (Nat.eqb_spec (nth k flg 0%nat) 0); simpl.
    + pose proof (ix n k ltac:(lia) ltac:(lia)). apply wp_bind. apply wp_vget with (d := 0). lia. fold (T F nrow B n k). apply Fl in e; [|lia]. destruct (oltb (TT B n k) 0) eqn:E; simpl.
      * exists k. auto.
      * destruct o; auto. intros. destruct (Nat.eq_dec j k). subst; auto. apply I; auto. lia.
    + destruct o; auto. intros. destruct (Nat.eq_dec j k). subst. apply Fl in H1; lia. apply I; auto. lia.
  - intros o I. destruct o; auto. intros j Hj. apply I; auto. destruct Hj. lia.
Qed.

(** The ratio test. *)
Definition ratio (B : list F) (p i : nat) (z : F) : Prop := z * TT B i p = TT B i 0.
Lemma ratio_uniq : forall B p i z z', lt 0 (TT B i p) -> ratio B p i z -> ratio B p i z' -> z = z'.
Proof.
  unfold ratio. intros. assert ((z - z') * TT B i p = 0). { transitivity (z * TT B i p - z' * TT B i p). ring. rewrite H0, H1. ring. }
  apply mul_cancel in H2. replace z with (z - z' + z') by ring. rewrite H2. ring. apply pos_nz. auto.
Qed.
Definition far (B : list F) (p : nat) : Prop := forall i z, (i < n)%nat -> lt 0 (TT B i p) -> ratio B p i z -> lt big z.
Definition leaves (B : list F) (p q : nat) (b : F) : Prop := (q < n)%nat /\ lt 0 (TT B q p) /\ ratio B p q b /\ forall i z, (i < n)%nat -> lt 0 (TT B i p) -> ratio B p i z -> le b z.
Lemma min_ratio_ok : forall B p, length B = ((n +n 1) *n nrow)%nat -> (p < nrow)%nat ->
  wp (min_ratio (n +n 1) nrow p B) (fun r => match snd r with None => far B p | Some q => leaves B p q (fst r) end).
Proof.
  intros B p LB Hp. unfold min_ratio. rewrite ncol1.
  apply wp_forn with (I := fun k (r : F * option nat) => match snd r with
    | None => forall i z, (i < k)%nat -> lt 0 (TT B i p) -> ratio B p i z -> lt big z
    | Some q => (q < k)%nat /\ lt 0 (TT B q p) /\ ratio B p q (fst r) /\ le (fst r) big /\ forall i z, (i < k)%nat -> lt 0 (TT B i p) -> ratio B p i z -> le (fst r) z end).
  - lia.
  - simpl. intros; lia.
  - intros k r Hk I. pose proof (ix k p ltac:(lia) Hp). pose proof (ix0 k ltac:(lia)). apply wp_bind. apply wp_vget with (d := 0). lia. apply wp_bind. apply wp_vget with (d := 0). lia.
    rewrite T0. fold (T F nrow B k p). destruct (oltb 0 (TT B k p)) eqn:E; simpl negb; cbv iota.
    + destruct (odiv_ok F (TT B k 0) (TT B k p)) as (z & -> & Ez). { apply pos_nz. auto. } apply wp_bind. apply wp_some. change (ratio B p k z) in Ez. destruct (oltb big z) eqn:Eb.
      * apply wp_some. destruct r as (b, [q|]); simpl fst in *; simpl snd in *.
        -- destruct I as (I1 & I2 & I3 & I4 & I5). split. lia. split; auto. split; auto. split; auto. intros. destruct (Nat.eq_dec i k).
           ++ subst. rewrite (ratio_uniq _ _ _ _ _ H2 H3 Ez). apply lt_le. eapply le_lt_trans; eauto.
           ++ apply (I5 i); auto. lia.
        -- intros i z0 H1 H2 H3. destruct (Nat.eq_dec i k). subst. rewrite (ratio_uniq _ _ _ _ _ H2 H3 Ez). auto. apply (I i); auto. lia.
      * destruct r as (b, [q|]); simpl fst in *; simpl snd in *.
        -- destruct I as (I1 & I2 & I3 & I4 & I5). destruct (oltb z b) eqn:Ezb; apply wp_some; simpl.
           ++ split. lia. split; auto. split; auto. split; auto. intros. destruct (Nat.eq_dec i k). subst. rewrite (ratio_uniq _ _ _ _ _ H2 H3 Ez). apply le_refl. apply le_trans with b. apply lt_le; auto. apply (I5 i); auto; lia.
           ++ split. lia. split; auto. split; auto. split; auto. intros. destruct (Nat.eq_dec i k). subst. rewrite (ratio_uniq _ _ _ _ _ H2 H3 Ez). auto. apply (I5 i); auto; lia.
        -- apply wp_some. simpl. split. lia. split; auto. split; auto. split; auto. intros. destruct (Nat.eq_dec i k). subst. rewrite (ratio_uniq _ _ _ _ _ H2 H3 Ez). apply le_refl.
           apply le_trans with big. auto. apply lt_le, (I i); auto; lia.
    + apply wp_some. destruct r as (b, [q|]); simpl fst in *; simpl snd in *.
      * destruct I as (I1 & I2 & I3 & I4 & I5). split. lia. split; auto. split; auto. split; auto. intros. destruct (Nat.eq_dec i k). subst. unfold lt in H2. congruence. apply (I5 i); auto; lia.
      * intros i z0 H1 H2 H3. destruct (Nat.eq_dec i k). subst. unfold lt in H2. congruence. apply (I i); auto; lia.
  - intros (b, [q|]); simpl. intros (I1 & I2 & I3 & I4 & I5). split; auto. intros I i z. apply I.
Qed.
End P.
