(** Ordered fields, rows of a table and the pivot operations. *)
From Coq Require Import List Arith Lia Bool Ring.
Import ListNotations.
From Verif Require Import Imp Alg LpModel LpSpec.

Section O.
Variable F : ofield.
Add Ring Fr : (rlaws F).
Local Open Scope K_scope.
Implicit Types x y z : F.

(** Order *)
Lemma lt_le : forall x y, lt x y -> le x y.
Proof. unfold lt, le. intros. destruct (oltb y x) eqn:E; auto. pose proof (olt_irrefl F x). pose proof (olt_trans F _ _ _ H E). congruence. Qed.
Lemma le_refl : forall x, le x x. Proof. intros. apply olt_irrefl. Qed.
Lemma le_cases : forall x y, le x y -> lt x y \/ x = y.
Proof. unfold le, lt. intros. destruct (olt_total F x y) as [?|[?|?]]; auto. congruence. Qed.
Lemma le_or_lt : forall x y, le x y \/ lt y x.
Proof. unfold le, lt. intros. destruct (oltb y x); auto. Qed.
Lemma lt_irr : forall x, ~ lt x x. Proof. unfold lt. intros x H. rewrite olt_irrefl in H. discriminate. Qed.
Lemma lt_trans : forall x y z, lt x y -> lt y z -> lt x z. Proof. intros x y z. apply olt_trans. Qed.
Lemma le_trans : forall x y z, le x y -> le y z -> le x z.
Proof. intros x y z H1 H2. apply le_cases in H1. apply le_cases in H2. destruct H1 as [H1| ->]; destruct H2 as [H2| ->]; try apply le_refl; apply lt_le; auto. eapply lt_trans; eauto. Qed.
Lemma lt_le_trans : forall x y z, lt x y -> le y z -> lt x z.
Proof. intros x y z H1 H2. apply le_cases in H2. destruct H2 as [H2| ->]; auto. eapply lt_trans; eauto. Qed.
Lemma le_lt_trans : forall x y z, le x y -> lt y z -> lt x z.
Proof. intros x y z H1 H2. apply le_cases in H1. destruct H1 as [H1| ->]; auto. eapply lt_trans; eauto. Qed.
Lemma le_not_lt : forall x y, le x y -> lt y x -> False. Proof. unfold le, lt. congruence. Qed.
Lemma le_antisym : forall x y, le x y -> le y x -> x = y.
Proof. intros x y H1 H2. apply le_cases in H1. destruct H1; auto. destruct (le_not_lt _ _ H2 H). Qed.
Lemma lt_add : forall x y z, lt x y -> lt (x + z) (y + z). Proof. intros x y z. apply olt_add. Qed.
Lemma le_add : forall x y z, le x y -> le (x + z) (y + z).
Proof. intros x y z H. apply le_cases in H. destruct H as [H| ->]. apply lt_le, lt_add; auto. apply le_refl. Qed.
Lemma le_add2 : forall x y z w, le x y -> le z w -> le (x + z) (y + w).
Proof. intros. apply le_trans with (y + z). apply le_add; auto. replace (y + z) with (z + y) by ring. replace (y + w) with (w + y) by ring. apply le_add; auto. Qed.
Lemma le_sub : forall x y, le x y <-> le 0 (y - x).
Proof. split; intros. - replace (0 : F) with (x + - x) by ring. replace (y - x) with (y + - x) by ring. apply le_add; auto. - replace x with (0 + x) by ring. replace y with ((y - x) + x) by ring. apply le_add; auto. Qed.
Lemma lt_sub : forall x y, lt x y <-> lt 0 (y - x).
Proof. split; intros. - replace (0 : F) with (x + - x) by ring. replace (y - x) with (y + - x) by ring. apply lt_add; auto. - replace x with (0 + x) by ring. replace y with ((y - x) + x) by ring. apply lt_add; auto. Qed.
Lemma le_opp : forall x, le x 0 <-> le 0 (- x).
Proof. intros. rewrite le_sub. replace (0 - x) with (- x) by ring. tauto. Qed.
Lemma lt_opp : forall x, lt x 0 <-> lt 0 (- x).
Proof. intros. rewrite lt_sub. replace (0 - x) with (- x) by ring. tauto. Qed.
Lemma mul_pos : forall x y, lt 0 x -> lt 0 y -> lt 0 (x * y). Proof. intros x y. apply olt_mul. Qed.
Lemma mul_nonneg : forall x y, le 0 x -> le 0 y -> le 0 (x * y).
Proof. intros x y H1 H2. apply le_cases in H1. apply le_cases in H2. destruct H1 as [H1| <-]; [destruct H2 as [H2| <-]|]; [apply lt_le, mul_pos; auto| |]. replace (x * 0) with (0 : F) by ring. apply le_refl. replace (0 * y) with (0 : F) by ring. apply le_refl. Qed.
Lemma mul_le : forall x y z, le x y -> le 0 z -> le (x * z) (y * z).
Proof. intros. apply (proj2 (le_sub _ _)). replace (y * z - x * z) with ((y - x) * z) by ring. apply mul_nonneg; auto. apply (proj1 (le_sub x y)). auto. Qed.
Lemma lt_01 : lt 0 (1 : F). Proof. eapply lt_trans; [apply e30_pos|apply e30_1]. Qed.
Lemma one_zero : (1 : F) <> 0. Proof. intros H. pose proof lt_01. rewrite H in H0. eapply lt_irr; eauto. Qed.
Lemma pos_nz : forall x, lt 0 x -> x <> 0. Proof. intros x H ->. eapply lt_irr; eauto. Qed.
Lemma neg_one : lt (- (1)) (0 : F). Proof. apply lt_opp. replace (- - (1)) with (1 : F) by ring. apply lt_01. Qed.
Lemma opp_le0 : forall x, lt 0 x -> lt (- x) 0. Proof. intros. apply lt_opp. replace (- - x) with x by ring. auto. Qed.
Lemma ratio_nonneg : forall z y x, z * y = x -> lt 0 y -> le 0 x -> le 0 z.
Proof.
  intros z y x E Hy Hx. destruct (le_or_lt 0 z) as [H|H]; auto. exfalso. apply lt_opp in H.
  assert (lt 0 (- z * y)) by (apply mul_pos; auto). replace (- z * y) with (- (z * y)) in H0 by ring. rewrite E in H0. apply lt_opp in H0. eapply le_not_lt; eauto.
Qed.
Lemma mul_cancel : forall x y, y <> 0 -> x * y = 0 -> x = 0.
Proof. intros x y Hy H. destruct (odiv_ok F 1 y Hy) as (z & _ & Ez). replace x with (x * (z * y)) by (rewrite Ez; ring). replace (x * (z * y)) with (x * y * z) by ring. rewrite H. ring. Qed.
Lemma sum_nonneg : forall n (f : nat -> F), (forall i, (i < n)%nat -> le 0 (f i)) -> le 0 (sumn n f).
Proof. induction n; intros. - apply le_refl. - rewrite sumn_S. replace (0 : F) with (0 + 0 : F) by ring. apply le_add2; auto. Qed.
Lemma fabs0 : fabs (0 : F) = 0. Proof. unfold fabs. rewrite olt_irrefl. auto. Qed.
Lemma fabs1 : fabs (1 : F) = 1. Proof. unfold fabs. pose proof (lt_le _ _ lt_01). unfold le in H. rewrite H. auto. Qed.
Lemma fabs_pos : forall x, lt 0 x -> fabs x = x. Proof. intros. unfold fabs. apply lt_le in H. unfold le in H. rewrite H. auto. Qed.
Lemma le_false : forall x y, oltb x y = false -> le y x. Proof. auto. Qed.
Lemma negb_ge : forall x, negb (oltb x 0) = true -> le 0 x. Proof. intros. apply negb_true_iff in H. auto. Qed.

End O.

Section P.
Variable F : ofield.
Add Ring Fr : (rlaws F).
Local Open Scope K_scope.
(** Rows: an equation  sum_{1 <= j < nrow} r_j x_j = r_0. *)
Section Rows.
Variable nrow : nat.
Hypothesis Hnr : (2 <= nrow)%nat.
Definition Lf (r x : nat -> F) : F := sumn (nrow -n 1) (fun j => r (S j) * x (S j)).
Definition Eq (r x : nat -> F) : Prop := Lf r x = r 0%nat.
Lemma Lf_ext : forall r s x, (forall j, (1 <= j < nrow)%nat -> r j = s j) -> Lf r x = Lf s x.
Proof. intros. unfold Lf. apply sumn_ext. intros. rewrite H; auto. lia. Qed.
Lemma Lf_extx : forall r x y, (forall j, (1 <= j < nrow)%nat -> x j = y j) -> Lf r x = Lf r y.
Proof. intros. unfold Lf. apply sumn_ext. intros. rewrite H; auto. lia. Qed.
Lemma Eq_ext : forall r s x, (forall j, (j < nrow)%nat -> r j = s j) -> (Eq r x <-> Eq s x).
Proof. intros. unfold Eq. rewrite (Lf_ext r s), (H 0%nat) by (intros; try apply H; lia). tauto. Qed.
Lemma Lf_comb : forall r s c x, Lf (fun j => s j - c * r j) x = Lf s x - c * Lf r x.
Proof.
  intros. unfold Lf. transitivity (sumn (nrow -n 1) (fun j => s (S j) * x (S j) + (- c) * (r (S j) * x (S j)))). apply sumn_ext. intros. ring.
  rewrite sumn_add, sumn_mull. ring.
Qed.
Lemma Eq_comb : forall r s c x, Eq r x -> (Eq (fun j => s j - c * r j) x <-> Eq s x).
Proof.
  intros r s c x H. unfold Eq in *. rewrite Lf_comb, H. split; intros E.
  - replace (Lf s x) with (Lf s x - c * r 0%nat + c * r 0%nat) by ring. rewrite E. ring.
  - rewrite E. ring.
Qed.
Lemma Eq_scale : forall r s p x, p <> 0 -> (forall j, (j < nrow)%nat -> s j * p = r j) -> (Eq s x <-> Eq r x).
Proof.
  intros r s p x Hp H. unfold Eq. assert (E : Lf r x = Lf s x * p). { unfold Lf. rewrite <- sumn_mulr. apply sumn_ext. intros. rewrite <- H by lia. ring. }
  rewrite E, <- (H 0%nat) by lia. split; intros.
  - rewrite H0. auto.
  - assert ((Lf s x - s 0%nat) * p = 0). { transitivity (Lf s x * p - s 0%nat * p). ring. rewrite H0. ring. }
    apply mul_cancel in H1; auto. replace (Lf s x) with (Lf s x - s 0%nat + s 0%nat) by ring. rewrite H1. ring.
Qed.

(** Tables *)
Definition T (B : list F) (i j : nat) : F := nth (i *n nrow +n j) B 0.
Lemma idx_inj : forall i j i' j', (j < nrow)%nat -> (j' < nrow)%nat -> (i *n nrow +n j = i' *n nrow +n j')%nat -> i = i' /\ j = j'.
Proof.
  intros. assert (i = i') as ->. { destruct (lt_eq_lt_dec i i') as [[?|?]|?]; auto; exfalso; nia. } lia.
Qed.
Lemma idx_lt : forall m i j, (i < m)%nat -> (j < nrow)%nat -> (i *n nrow +n j < m *n nrow)%nat.
Proof. intros. nia. Qed.
Lemma T_upd : forall B m i j i' j' v, length B = (m *n nrow)%nat -> (i < m)%nat -> (j < nrow)%nat -> (j' < nrow)%nat ->
  T (upd B (i *n nrow +n j) v) i' j' = if ((i' =? i) && (j' =? j))%bool then v else T B i' j'.
Proof.
  intros. unfold T. rewrite nth_upd by (rewrite H; apply idx_lt; auto). destruct (Nat.eq_dec (i *n nrow +n j) (i' *n nrow +n j')) as [E|E].
  - apply idx_inj in E; auto. destruct E as [-> ->]. rewrite !Nat.eqb_refl. auto.
  - destruct (Nat.eqb_spec i' i), (Nat.eqb_spec j' j); subst; simpl; auto. lia.
Qed.

Variable m : nat.
Lemma row_sub_ok : forall dst src c B, length B = (m *n nrow)%nat -> (dst < m)%nat -> (src < m)%nat -> dst <> src ->
  wp (row_sub nrow dst src c B) (fun B' => length B' = (m *n nrow)%nat /\
    forall i j, (j < nrow)%nat -> T B' i j = if i =? dst then T B dst j - c * T B src j else T B i j).
Proof.
  intros dst src c B HB Hd Hs Hn. unfold row_sub.
  apply wp_forn with (I := fun k B' => length B' = (m *n nrow)%nat /\ forall i j, (j < nrow)%nat -> T B' i j = if (i =? dst) && (j <? k) then T B dst j - c * T B src j else T B i j).
  - lia.
  - split; auto. intros. rewrite andb_false_r. auto.
  - intros k B' Hk (L & E). pose proof (idx_lt m src k Hs ltac:(lia)). pose proof (idx_lt m dst k Hd ltac:(lia)).
    apply wp_bind. apply wp_vget with (d := 0). lia. apply (wp_vmod _ (0 : F)). lia. split. rewrite upd_length. auto.
    intros. rewrite (T_upd _ m) by (auto; lia). fold (T B' dst k). fold (T B' src k). rewrite !E by lia.
    destruct (Nat.eqb_spec i dst); simpl; auto. subst. rewrite Nat.eqb_refl. simpl. replace (k <? k) with false by (symmetry; apply Nat.ltb_ge; lia).
    destruct (Nat.eqb_spec src dst). congruence. simpl.
    destruct (Nat.eqb_spec j k). subst. replace (k <? S k) with true by (symmetry; apply Nat.ltb_lt; lia). auto.
    destruct (Nat.ltb_spec j k), (Nat.ltb_spec j (S k)); auto; lia.
  - intros B' (L & E). split; auto. intros. rewrite E by auto. replace (j <? nrow) with true by (symmetry; apply Nat.ltb_lt; lia). rewrite andb_true_r. auto.
Qed.

Lemma row_div_ok : forall r p B, length B = (m *n nrow)%nat -> (r < m)%nat -> p <> 0 ->
  wp (forn 0 nrow (fun jrow B => x <- vget B (r *n nrow +n jrow) ;; y <- odiv x p ;; vset B (r *n nrow +n jrow) y) B) (fun B' => length B' = (m *n nrow)%nat /\
    forall i j, (j < nrow)%nat -> if i =? r then T B' i j * p = T B i j else T B' i j = T B i j).
Proof.
  intros r p B HB Hr Hp.
  apply wp_forn with (I := fun k B' => length B' = (m *n nrow)%nat /\ forall i j, (j < nrow)%nat -> if (i =? r) && (j <? k) then T B' i j * p = T B i j else T B' i j = T B i j).
  - lia.
  - split; auto. intros. rewrite andb_false_r. auto.
  - intros k B' Hk (L & E). pose proof (idx_lt m r k Hr ltac:(lia)).
    apply wp_bind. apply wp_vget with (d := 0). lia. fold (T B' r k). destruct (odiv_ok F (T B' r k) p Hp) as (z & -> & Ez). apply wp_bind. apply wp_some.
    apply wp_vset. lia. split. rewrite upd_length. auto. intros. rewrite (T_upd _ m) by (auto; lia). specialize (E i j H0) as Eij. pose proof (E r k ltac:(lia)) as Ek.
    rewrite Nat.eqb_refl in Ek. simpl in Ek. replace (k <? k) with false in Ek by (symmetry; apply Nat.ltb_ge; lia).
    destruct (Nat.eqb_spec i r); simpl in *; auto. subst. destruct (Nat.eqb_spec j k). subst. replace (k <? S k) with true by (symmetry; apply Nat.ltb_lt; lia). congruence.
    destruct (Nat.ltb_spec j k), (Nat.ltb_spec j (S k)); auto; lia.
  - intros B' (L & E). split; auto. intros i j Hj. specialize (E i j Hj). replace (j <? nrow) with true in E by (symmetry; apply Nat.ltb_lt; lia). rewrite andb_true_r in E. auto.
Qed.

Lemma sweep_ok : forall q p B, length B = (m *n nrow)%nat -> (q < m)%nat -> (p < nrow)%nat -> T B q p <> 0 ->
  wp (sweep m nrow q p B) (fun B' => length B' = (m *n nrow)%nat /\
    (forall j, (j < nrow)%nat -> T B' q j * T B q p = T B q j) /\
    (forall i j, (i < m)%nat -> i <> q -> (j < nrow)%nat -> T B' i j = T B i j - T B i p * T B' q j)).
Proof.
  intros q p B HB Hq Hp Hz. unfold sweep. pose proof (idx_lt m q p Hq Hp). apply wp_bind. apply wp_vget with (d := 0). lia. fold (T B q p). apply wp_bind.
  eapply wp_mono. apply row_div_ok; auto. intros B1 (L1 & E1).
  apply wp_forn with (I := fun k B' => length B' = (m *n nrow)%nat /\ (forall j, (j < nrow)%nat -> T B' q j = T B1 q j) /\
    (forall i j, (i < m)%nat -> i <> q -> (j < nrow)%nat -> T B' i j = if i <? k then T B i j - T B i p * T B1 q j else T B i j)).
  - lia.
  - split; auto. split; auto. intros. specialize (E1 i j H2). destruct (Nat.eqb_spec i q); [congruence|]. rewrite E1. auto.
  - intros k B' Hk (L & Eq' & E). destruct (Nat.eqb_spec k q).
    + apply wp_some. split; auto. split; auto. intros. rewrite E by auto. destruct (Nat.ltb_spec i k), (Nat.ltb_spec i (S k)); auto; lia.
    + pose proof (idx_lt m k p ltac:(lia) Hp). apply wp_bind. apply wp_vget with (d := 0). lia. fold (T B' k p).
      eapply wp_mono. apply row_sub_ok; auto; lia. intros B2 (L2 & E2). split; auto. split.
      * intros. rewrite E2 by auto. destruct (Nat.eqb_spec q k); [congruence|]. auto.
      * intros. rewrite E2 by auto. destruct (Nat.eqb_spec i k).
        -- subst. rewrite !E, Eq' by auto. replace (k <? k) with false by (symmetry; apply Nat.ltb_ge; lia). replace (k <? S k) with true by (symmetry; apply Nat.ltb_lt; lia). auto.
        -- rewrite E by auto. destruct (Nat.ltb_spec i k), (Nat.ltb_spec i (S k)); auto; lia.
  - intros B' (L & Eq' & E). split; auto. split.
    + intros. rewrite Eq' by auto. specialize (E1 q j H0). rewrite Nat.eqb_refl in E1. auto.
    + intros. rewrite E, Eq' by auto. replace (i <? m) with true by (symmetry; apply Nat.ltb_lt; lia). auto.
Qed.
End Rows.
End P.
