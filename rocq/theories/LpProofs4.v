(** What a table with a feasible basis says: basic points, optimality, unbounded directions; CLinPro::Solve and CLinPro::GetValid. *)
From Coq Require Import List Arith Lia Bool Ring.
Import ListNotations.
From Verif Require Import Imp Alg LpModel LpSpec LpProofs1 LpProofs2 LpProofs3.

Section P.
Variable F : ofield.
Add Ring Fr : (rlaws F).
Local Open Scope K_scope.
Section Tab.
Variables n nrow : nat.
Hypothesis Hnr : (2 <= nrow)%nat.
Notation TT := (T F nrow).
Notation EQ_ := (Eq F nrow).
Notation mcn mc i := (nth i mc 0%nat).
Notation basis := (basis F n nrow).
Notation full := (full F n nrow).
Notation sat := (sat F n nrow).
Notation nonbasic := (nonbasic n nrow).
Notation far := (far F n nrow).
Notation optimal := (optimal F n nrow).

Lemma full_unit : forall B mc, full B mc -> forall i i', (i <= n)%nat -> (i' <= n)%nat -> TT B i' (mcn mc i) = if i' =? i then 1 else 0.
Proof.
  intros B mc H i i' Hi Hi'. destruct (Nat.eq_dec i' n) as [->|]. 2: apply (bs_unit _ _ _ _ _ (fb _ _ _ _ _ H)); auto; lia.
  destruct (Nat.eqb_spec n i). subst. rewrite (bs_last _ _ _ _ _ (fb _ _ _ _ _ H)). apply (ftrg _ _ _ _ _ H). apply (fobj _ _ _ _ _ H). lia.
Qed.

Lemma basic_dec : forall mc j, (1 <= j < nrow)%nat -> (exists i, (i <= n)%nat /\ mcn mc i = j) \/ nonbasic mc j.
Proof.
  intros mc j Hj. unfold LpProofs2.nonbasic. assert (forall k, (exists i, (i < k)%nat /\ mcn mc i = j) \/ forall i, (i < k)%nat -> mcn mc i <> j).
  { induction k. right. intros; lia. destruct IHk as [(i & Hi & E)|N]. left. exists i. split; auto. destruct (Nat.eq_dec (mcn mc k) j). left. exists k. split; auto. right. intros i Hi. destruct (Nat.eq_dec i k). subst; auto. apply N. lia. }
  destruct (H (S n)) as [(i & Hi & E)|N]. left. exists i. split; auto. lia. right. split; auto. intros. apply N. lia.
Qed.

Lemma Lf_pick1 : forall (r y : nat -> F) a, (1 <= a < nrow)%nat -> (forall j, (1 <= j < nrow)%nat -> j <> a -> r j * y j = 0) -> Lf F nrow r y = r a * y a.
Proof.
  intros r y a Ha H. unfold Lf. transitivity (sumn (nrow -n 1) (fun j => if j =? (a -n 1) then r (S j) * y (S j) else 0)).
  - apply sumn_ext. intros j Hj. destruct (Nat.eqb_spec j (a -n 1)); auto. apply H; lia.
  - rewrite (sumn_pick _ _ (a -n 1) (fun j => r (S j) * y (S j))) by lia. replace (S (a -n 1)) with a by lia. auto.
Qed.
Lemma Lf_pick2 : forall (r y : nat -> F) a b, (1 <= a < nrow)%nat -> (1 <= b < nrow)%nat -> a <> b -> (forall j, (1 <= j < nrow)%nat -> j <> a -> j <> b -> r j * y j = 0) -> Lf F nrow r y = r a * y a + r b * y b.
Proof.
  intros r y a b Ha Hb Hab H. unfold Lf. transitivity (sumn (nrow -n 1) (fun j => (if j =? (a -n 1) then r (S j) * y (S j) else 0) + (if j =? (b -n 1) then r (S j) * y (S j) else 0))).
  - apply sumn_ext. intros j Hj. destruct (Nat.eqb_spec j (a -n 1)), (Nat.eqb_spec j (b -n 1)); try lia; try ring. rewrite H by lia. ring.
  - rewrite sumn_add. rewrite (sumn_pick _ _ (a -n 1) (fun j => r (S j) * y (S j))) by lia. rewrite (sumn_pick _ _ (b -n 1) (fun j => r (S j) * y (S j))) by lia.
    replace (S (a -n 1)) with a by lia. replace (S (b -n 1)) with b by lia. auto.
Qed.

Lemma sat_basic : forall B mc (y : nat -> F), full B mc -> (forall i, (i <= n)%nat -> y (mcn mc i) = TT B i 0) -> (forall j, nonbasic mc j -> y j = 0) -> sat B y.
Proof.
  intros B mc y H Hb Hn i Hi. unfold Eq. pose proof (bs_rng _ _ _ _ _ (fb _ _ _ _ _ H) i Hi) as Hr. rewrite (Lf_pick1 _ _ (mcn mc i)); auto.
  - rewrite (full_unit _ _ H) by auto. rewrite Nat.eqb_refl, Hb by auto. ring.
  - intros j Hj Hne. destruct (basic_dec mc j Hj) as [(i' & Hi' & <-)|N]. rewrite (full_unit _ _ H) by auto. destruct (Nat.eqb_spec i i'). subst. congruence. ring. rewrite Hn by auto. ring.
Qed.
Lemma sat_moved : forall B mc p t (y : nat -> F), full B mc -> nonbasic mc p ->
  (forall i, (i <= n)%nat -> y (mcn mc i) = TT B i 0 - TT B i p * t) -> (forall j, nonbasic mc j -> y j = if j =? p then t else 0) -> sat B y.
Proof.
  intros B mc p t y H Np Hb Hn i Hi. unfold Eq. pose proof (bs_rng _ _ _ _ _ (fb _ _ _ _ _ H) i Hi) as Hr. pose proof Np as (Hp & Np'). rewrite (Lf_pick2 _ _ (mcn mc i) p); auto.
  - rewrite (full_unit _ _ H) by auto. rewrite Nat.eqb_refl, Hb, (Hn p), Nat.eqb_refl by auto. ring.
  - intros j Hj Hne Hjp. destruct (basic_dec mc j Hj) as [(i' & Hi' & <-)|N]. rewrite (full_unit _ _ H) by auto. destruct (Nat.eqb_spec i i'). subst. congruence. ring. rewrite Hn by auto. destruct (Nat.eqb_spec j p). congruence. ring.
Qed.

(** Such points exist. *)
Definition moved (B : list F) (mc : list nat) (p : nat) (t : F) (j : nat) : F :=
  match find (fun i => mcn mc i =? j) (seq 0 (n +n 1)) with Some i => TT B i 0 - TT B i p * t | None => if j =? p then t else 0 end.
Lemma moved_basic : forall B mc p t i, basis B mc -> (i <= n)%nat -> moved B mc p t (mcn mc i) = TT B i 0 - TT B i p * t.
Proof.
  intros B mc p t i H Hi. unfold moved. destruct (find _ _) as [i'|] eqn:E.
  - apply find_some in E. destruct E as (E1 & E2). apply in_seq in E1. apply Nat.eqb_eq in E2. apply (basis_inj F n nrow Hnr _ _ H) in E2; try lia. subst. auto.
  - exfalso. pose proof (find_none _ _ E i ltac:(apply in_seq; lia)). simpl in H0. rewrite Nat.eqb_refl in H0. discriminate.
Qed.
Lemma moved_nonbasic : forall B mc p t j, nonbasic mc j -> moved B mc p t j = if j =? p then t else 0.
Proof.
  intros B mc p t j (Hj & N). unfold moved. destruct (find _ _) as [i'|] eqn:E; auto. apply find_some in E. destruct E as (E1 & E2). apply in_seq in E1. apply Nat.eqb_eq in E2. exfalso. apply (N i'); auto. lia.
Qed.
Lemma sat_moved' : forall B mc p t, full B mc -> nonbasic mc p -> sat B (moved B mc p t).
Proof. intros. apply sat_moved with mc p t; auto. intros. apply moved_basic; auto. apply fb. auto. intros. apply moved_nonbasic. auto. Qed.

(** At an optimal table no non-negative solution has a larger target. *)
Lemma optimal_le : forall B mc (x : nat -> F), full B mc -> optimal B mc -> sat B x -> (forall j, (2 <= j < nrow)%nat -> le 0 (x j)) -> le (x 1%nat) (TT B n 0).
Proof.
  intros B mc x H Ho Hs Hx. specialize (Hs n ltac:(lia)). unfold Eq, Lf in Hs. rewrite <- Hs. replace (nrow -n 1)%nat with (S (nrow -n 2)) by lia. rewrite sumn_S_l. rewrite (ftrg _ _ _ _ _ H).
  apply (proj2 (le_sub F _ _)). replace (1 * x 1%nat + sumn (nrow -n 2) (fun i => TT B n (S (S i)) * x (S (S i))) - x 1%nat) with (sumn (nrow -n 2) (fun i => TT B n (S (S i)) * x (S (S i)))) by ring.
  apply sum_nonneg. intros j Hj. destruct (basic_dec mc (S (S j)) ltac:(lia)) as [(i & Hi & E)|N].
  - rewrite <- E at 1. rewrite (full_unit _ _ H) by auto. destruct (Nat.eqb_spec n i). subst. rewrite (bs_last _ _ _ _ _ (fb _ _ _ _ _ H)) in E. lia. replace (0 * x (S (S j))) with (0 : F) by ring. apply le_refl.
  - apply mul_nonneg. apply Ho. auto. apply Hx. lia.
Qed.

(** A column without a close bound: every step up to [big] stays non-negative. *)
Lemma far_nonneg : forall B mc p t j, full B mc -> nonbasic mc p -> far B p -> le 0 t -> le t big -> (2 <= j < nrow)%nat -> le 0 (moved B mc p t j).
Proof.
  intros B mc p t j H Np Hf H0 Ht Hj. destruct (basic_dec mc j ltac:(lia)) as [(i & Hi & <-)|N].
  - rewrite moved_basic by (auto; apply fb; auto). assert (i < n)%nat. { destruct (Nat.eq_dec i n). subst. rewrite (bs_last _ _ _ _ _ (fb _ _ _ _ _ H)) in Hj. lia. lia. }
    pose proof (bs_rhs _ _ _ _ _ (fb _ _ _ _ _ H) i H1). destruct (le_or_lt F (TT B i p) 0) as [Hle|Hlt].
    + replace (TT B i 0 - TT B i p * t) with (TT B i 0 + (- TT B i p) * t) by ring. replace (0 : F) with (0 + 0 : F) by ring. apply le_add2; auto. apply mul_nonneg; auto. apply (proj1 (le_opp F _)). auto.
    + destruct (odiv_ok F (TT B i 0) (TT B i p) (pos_nz F _ Hlt)) as (z & _ & Ez). pose proof (Hf i z H1 Hlt Ez). rewrite <- Ez. replace (z * TT B i p - TT B i p * t) with (z * TT B i p - t * TT B i p) by ring.
      apply (proj1 (le_sub F _ _)). apply mul_le. apply le_trans with big; auto. apply lt_le; auto. apply lt_le; auto.
  - rewrite moved_nonbasic by auto. destruct (j =? p); auto. apply le_refl.
Qed.
End Tab.

(** An object after Precomp has returned 0. *)
Record ready (eqs : list (ceq F)) (p : linpro F) : Prop := mkReady {
  rd_eqs : aEq p = eqs;
  rd_neq : neq p = length eqs;
  rd_nvar : nvar p = nvars eqs;
  rd_basis : basis F (neq p) (2 +n nvar p +n nslk p) (tabA p) (mcr p);
  rd_trg : forall j, (2 <= j < 2 +n nvar p +n nslk p)%nat -> T F (2 +n nvar p +n nslk p) (tabA p) (neq p) j = 0;
  rd_trg0 : T F (2 +n nvar p +n nslk p) (tabA p) (neq p) 0 = 0;
  rd_link : forall v, length v = nvar p -> (feasible eqs v <-> exists x : nat -> F,
    (forall i, (i < neq p)%nat -> Eq F (2 +n nvar p +n nslk p) (T F (2 +n nvar p +n nslk p) (tabA p) i) x) /\
    (forall j, (2 <= j < 2 +n nvar p +n nslk p)%nat -> le 0 (x j)) /\ (forall k, (k < nvar p)%nat -> x (2 +n k)%nat = nth k v 0)) }.

Lemma fabs_opp : forall x : F, fabs (- x) = fabs x.
Proof.
  intros. unfold fabs. destruct (olt_total F x 0) as [E|[E|E]].
  - assert (lt (x) 0) by auto. apply lt_opp in H. apply lt_le in H. unfold le in H. rewrite H, E. auto.
  - subst. replace (- 0 : F) with (0 : F) by ring. rewrite olt_irrefl. auto.
  - assert (lt (- x) 0) by (apply opp_le0; auto). rewrite H. assert (le 0 x) by (apply lt_le; auto). unfold le in H0. rewrite H0. ring.
Qed.

Lemma sumn_le_trunc : forall a b (f : nat -> F), (a <= b)%nat -> (forall i, (a <= i < b)%nat -> f i = 0) -> sumn b f = sumn a f.
Proof. induction b; intros. replace a with 0%nat by lia. auto. destruct (Nat.eq_dec a (S b)). subst; auto. rewrite sumn_S, IHb; try lia. rewrite H0 by lia. ring. intros. apply H0. lia. Qed.

Section Solve.
Variables (eqs : list (ceq F)) (p : linpro F).
Hypothesis Hr : ready eqs p.
Notation n := (neq p).
Notation nrow := (2 +n nvar p +n nslk p).
Notation TT := (T F (2 +n nvar p +n nslk p)).
Notation mcn mc i := (nth i mc 0%nat).
Let Hnr : (2 <= nrow)%nat. Proof. lia. Qed.
Variable c : list F.
Hypothesis Hc : (length c <= nvar p)%nat.
Hypothesis Htiny : not_tiny c.

Definition start (B : list F) : Prop := length B = ((n +n 1) *n nrow)%nat /\ (forall i j, (i < n)%nat -> (j < nrow)%nat -> TT B i j = TT (tabA p) i j) /\
  TT B n 0 = 0 /\ TT B n 1 = 1 /\ (forall j, (2 <= j < nrow)%nat -> TT B n j = if j -n 2 <? length c then - nth (j -n 2) c 0 else 0).
Lemma start_basis : forall B, start B -> basis F n nrow B (mcr p).
Proof.
  intros B (L & R & _). pose proof (rd_basis _ _ Hr) as H. split; auto.
  - apply (bs_mc _ _ _ _ _ H).
  - apply (bs_rng _ _ _ _ _ H).
  - apply (bs_last _ _ _ _ _ H).
  - intros. pose proof (bs_rng _ _ _ _ _ H i H0). rewrite R by lia. apply (bs_unit _ _ _ _ _ H); auto.
  - intros. rewrite R by lia. apply (bs_rhs _ _ _ _ _ H); auto.
Qed.
Lemma start_tiny : forall B, start B -> forall i, (i < n)%nat -> TT B n (mcn (mcr p) i) = 0 \/ le e30 (fabs (TT B n (mcn (mcr p) i))).
Proof.
  intros B (L & R & R0 & R1 & R2) i Hi. pose proof (rd_basis _ _ Hr) as H. pose proof (bs_rng _ _ _ _ _ H i ltac:(lia)).
  assert (mcn (mcr p) i <> 1%nat). { rewrite <- (bs_last _ _ _ _ _ H). intros E. apply (basis_inj F n nrow Hnr _ _ H) in E; lia. }
  rewrite R2 by lia. destruct (Nat.ltb_spec (mcn (mcr p) i -n 2) (length c)). 2: left; auto.
  rewrite fabs_opp. destruct (Htiny (nth (mcn (mcr p) i -n 2) c 0)) as [E|E]. apply nth_In; auto. left. rewrite E. ring. right. auto.
Qed.
Lemma start_sat : forall B x, start B -> (sat F n nrow B x <-> (forall i, (i < n)%nat -> Eq F nrow (TT (tabA p) i) x) /\ x 1%nat = sumn (length c) (fun k => nth k c 0 * x (2 +n k)%nat)).
Proof.
  intros B x (L & R & R0 & R1 & R2).
  assert (E : Eq F nrow (TT B n) x <-> x 1%nat = sumn (length c) (fun k => nth k c 0 * x (2 +n k)%nat)).
  { unfold Eq, Lf. replace (nrow -n 1)%nat with (S (nvar p +n nslk p)) by lia. rewrite sumn_S_l, R0, R1.
    rewrite (sumn_le_trunc (length c)). 2: lia. 2: { intros. rewrite R2 by lia. destruct (Nat.ltb_spec (S (S i) -n 2) (length c)). lia. ring. }
    assert (E : sumn (length c) (fun i => TT B n (S (S i)) * x (S (S i))) = - sumn (length c) (fun k => nth k c 0 * x (2 +n k)%nat)).
    { replace (- sumn (length c) (fun k => nth k c 0 * x (2 +n k)%nat)) with ((- (1)) * sumn (length c) (fun k => nth k c 0 * x (2 +n k)%nat)) by ring. rewrite <- sumn_mull. apply sumn_ext. intros k Hk. rewrite R2 by lia.
      replace (S (S k) -n 2)%nat with k by lia. destruct (Nat.ltb_spec k (length c)). simpl. ring. lia. }
    rewrite E. split; intros H. replace (x 1%nat) with ((1 * x 1%nat + - sumn (length c) (fun k => nth k c 0 * x (2 +n k)%nat)) + sumn (length c) (fun k => nth k c 0 * x (2 +n k)%nat)) by ring. rewrite H. ring. rewrite H. ring. }
  unfold sat. split.
  - intros H. split. intros i Hi. rewrite (Eq_ext F nrow Hnr _ (TT B i)). apply H. lia. intros. rewrite R; auto. apply E. apply H. auto.
  - intros (H & H1) i Hi. destruct (Nat.eq_dec i n) as [->|]. apply E. auto. rewrite (Eq_ext F nrow Hnr _ (TT (tabA p) i)). apply H. lia. intros. rewrite R; auto; lia.
Qed.

(** From a solution of the table to a feasible point and back. *)
Definition vars (x : nat -> F) : list F := map (fun k => x (2 +n k)%nat) (seq 0 (nvar p)).
Lemma vars_nth : forall x k, (k < nvar p)%nat -> nth k (vars x) 0 = x (2 +n k)%nat.
Proof. intros. unfold vars. rewrite nth_map_seq; auto. Qed.
Lemma vars_form : forall x, form c (vars x) = sumn (length c) (fun k => nth k c 0 * x (2 +n k)%nat).
Proof. intros. unfold form. apply sumn_ext. intros. rewrite vars_nth; auto. lia. Qed.
Lemma to_feasible : forall B x, start B -> sat F n nrow B x -> (forall j, (2 <= j < nrow)%nat -> le 0 (x j)) -> feasible eqs (vars x) /\ form c (vars x) = x 1%nat.
Proof.
  intros B x HB Hs Hx. apply start_sat in Hs; auto. destruct Hs as (Hs & E). split.
  - apply (rd_link _ _ Hr). unfold vars. rewrite map_length, seq_length. auto. exists x. split; auto. split; auto. intros. rewrite vars_nth; auto.
  - rewrite E. apply vars_form.
Qed.
Lemma of_feasible : forall B v, start B -> feasible eqs v -> exists x, sat F n nrow B x /\ (forall j, (2 <= j < nrow)%nat -> le 0 (x j)) /\ x 1%nat = form c v.
Proof.
  intros B v HB Hv. assert (Lv : length v = nvar p). { rewrite (rd_nvar _ _ Hr). apply Hv. } apply (rd_link _ _ Hr) in Hv; auto. destruct Hv as (x & Hs & Hx & Ev).
  exists (fun j => if j =? 1 then form c v else x j). split; [|split].
  - apply start_sat; auto. split.
    + intros i Hi. specialize (Hs i Hi). unfold Eq in *. rewrite <- Hs. unfold Lf. replace (nrow -n 1)%nat with (S (nrow -n 2)) by lia. rewrite !sumn_S_l. simpl.
      pose proof (rd_basis _ _ Hr) as H. assert (Z : TT (tabA p) i 1 = 0). { pose proof (bs_unit _ _ _ _ _ H n i ltac:(lia) Hi) as U. rewrite (bs_last _ _ _ _ _ H) in U. rewrite U. destruct (Nat.eqb_spec i n); auto; lia. } simpl in Z. rewrite Z. ring.
    + simpl. unfold form. apply sumn_ext. intros k Hk. rewrite <- Ev by lia. auto.
  - intros j Hj. destruct (Nat.eqb_spec j 1). lia. auto.
  - simpl. auto.
Qed.

Lemma buff_ok : forall B mc, full F n nrow B mc -> wp (forn 0 (n +n 1) (fun icol buff => jrow <- vget mc icol ;; b <- vget B (icol *n nrow) ;; vset buff jrow b) (repeat 0 nrow)) (fun buff =>
  length buff = nrow /\ (forall i, (i <= n)%nat -> nth (mcn mc i) buff 0 = TT B i 0) /\ forall j, nonbasic n nrow mc j -> nth j buff 0 = 0).
Proof.
  intros B mc H. pose proof (fb _ _ _ _ _ H) as H0. pose proof (bs_len _ _ _ _ _ H0) as L. pose proof (bs_mc _ _ _ _ _ H0) as M.
  apply wp_forn with (I := fun k buff => length buff = nrow /\ (forall i, (i < k)%nat -> nth (mcn mc i) buff 0 = TT B i 0) /\ forall j, nonbasic n nrow mc j -> nth j buff 0 = 0).
  - lia.
  - split. apply repeat_length. split. intros; lia. intros. apply nth_repeat.
  - intros k buff Hk (Lb & E & Z). pose proof (bs_rng _ _ _ _ _ H0 k ltac:(lia)). pose proof (ix0 n nrow Hnr k ltac:(lia)). apply wp_bind. apply wp_vget with (d := 0%nat). lia. apply wp_bind. apply wp_vget with (d := 0). lia.
    rewrite (T0 F nrow). apply wp_vset. lia. split. rewrite upd_length. auto. split.
    + intros i Hi. rewrite nth_upd by lia. destruct (Nat.eq_dec (mcn mc k) (mcn mc i)) as [E'|]. apply (basis_inj F n nrow Hnr _ _ H0) in E'; try lia. subst; auto. apply E. destruct (Nat.eq_dec i k). subst; congruence. lia.
    + intros j (Hj & N). rewrite nth_upd_other. apply Z. split; auto. apply N. lia.
  - intros buff (Lb & E & Z). split; auto. split; auto. intros. apply E. lia.
Qed.

Lemma Solve_ok : forall nitr sol0, wp (Solve p sol0 nitr c) (fun r => let '(res, sol, opt, nitr') := r in
  feasible eqs sol /\ form c sol = opt /\
  ((res = 0%nat /\ nitr' = nitr) \/
   (res = 0%nat /\ (nitr' < nitr)%nat /\ forall v, feasible eqs v -> le (form c v) opt) \/
   (res = 2%nat /\ (nitr' < nitr)%nat /\ exists d, lt 0 d /\ forall t, le 0 t -> le t big -> exists v, feasible eqs v /\ form c v = opt + d * t))).
Proof.
  intros nitr sol0. unfold Solve. pose proof (rd_basis _ _ Hr) as H0. pose proof (bs_len _ _ _ _ _ H0) as L. pose proof (bs_mc _ _ _ _ _ H0) as M.
  rewrite !(ncol1 n nrow Hnr). apply wp_bind. apply wp_assertb. apply Nat.eqb_eq. auto. apply wp_bind. pose proof (ix n nrow Hnr n 1 ltac:(lia) ltac:(lia)). apply wp_vset. lia. apply wp_bind.
  apply wp_forn with (I := fun k B => length B = ((n +n 1) *n nrow)%nat /\ (forall i j, (i < n)%nat -> (j < nrow)%nat -> TT B i j = TT (tabA p) i j) /\
    TT B n 0 = 0 /\ TT B n 1 = 1 /\ (forall j, (2 <= j < nrow)%nat -> TT B n j = if j -n 2 <? k then - nth (j -n 2) c 0 else 0)).
  - lia.
  - split. rewrite upd_length. auto. split; [|split; [|split]].
    + intros i j Hi Hj. rewrite (T_upd F nrow Hnr _ (n +n 1)) by (auto; lia). destruct (Nat.eqb_spec i n); auto. lia.
    + rewrite (T_upd F nrow Hnr _ (n +n 1)) by (auto; lia). rewrite Nat.eqb_refl. simpl. apply (rd_trg0 _ _ Hr).
    + rewrite (T_upd F nrow Hnr _ (n +n 1)) by (auto; lia). rewrite !Nat.eqb_refl. auto.
    + intros j Hj. rewrite (T_upd F nrow Hnr _ (n +n 1)) by (auto; lia). rewrite Nat.eqb_refl. destruct (Nat.eqb_spec j 1). lia. simpl andb. cbv iota. rewrite (rd_trg _ _ Hr) by auto. auto.
  - intros k B Hk (LB & R & R0 & R1 & R2). apply wp_bind. apply wp_vget with (d := 0). lia. pose proof (ix n nrow Hnr n (2 +n k) ltac:(lia) ltac:(lia)).
    replace (n *n nrow +n 2 +n k)%nat with (n *n nrow +n (2 +n k))%nat by lia. apply wp_vset. lia. split. rewrite upd_length. auto. split; [|split; [|split]].
    + intros i j Hi Hj. rewrite (T_upd F nrow Hnr _ (n +n 1)) by (auto; lia). destruct (Nat.eqb_spec i n). lia. apply R; auto.
    + rewrite (T_upd F nrow Hnr _ (n +n 1)) by (auto; lia). rewrite Nat.eqb_refl. simpl. auto.
    + rewrite (T_upd F nrow Hnr _ (n +n 1)) by (auto; lia). rewrite Nat.eqb_refl. simpl. auto.
    + intros j Hj. rewrite (T_upd F nrow Hnr _ (n +n 1)) by (auto; lia). rewrite Nat.eqb_refl. destruct (Nat.eqb_spec j (2 +n k)); simpl andb; cbv iota.
      * subst. replace (2 +n k -n 2)%nat with k by lia. replace (k <? S k) with true by (symmetry; apply Nat.ltb_lt; lia). auto.
      * rewrite R2 by auto. destruct (Nat.ltb_spec (j -n 2) k), (Nat.ltb_spec (j -n 2) (S k)); auto; lia.
  - intros B HB. change (start B) in HB. pose proof (start_basis _ HB) as Hb. apply wp_bind. eapply wp_mono. apply (check_ok F n nrow Hnr _ _ Hb). intros b ->. apply wp_bind. apply wp_assertb; auto.
    apply wp_bind. eapply wp_mono. apply (SolveTable_ok F n nrow Hnr nitr B (mcr p) Hb). apply HB. apply start_tiny; auto.
    intros (((res, nitr'), B'), mc') (Hf & Hs & Hst). pose proof (fb _ _ _ _ _ Hf) as Hb'. apply wp_bind. eapply wp_mono. apply (buff_ok B' mc' Hf). intros buff (Lb & Eb & Zb). apply wp_bind.
    apply wp_forn with (I := fun k sol => length sol = nvar p /\ forall i, (i < k)%nat -> nth i sol 0 = nth (2 +n i) buff 0).
    + lia.
    + split. apply vresize_length. intros; lia.
    + intros k sol Hk (Ls & Es). apply wp_bind. apply wp_vget with (d := 0). lia. apply wp_vset. lia. split. rewrite upd_length. auto. intros i Hi. rewrite nth_upd by lia. destruct (Nat.eq_dec k i). subst. f_equal. lia. apply Es. lia.
    + intros sol (Ls & Es). apply wp_bind. apply wp_vget with (d := 0). lia. apply wp_some. set (y := fun j => nth j buff 0).
      assert (Esol : sol = vars y). { apply (list_ext _ 0). unfold vars. rewrite map_length, seq_length. auto. intros i Hi. rewrite vars_nth by lia. apply Es. lia. }
      assert (Hy : sat F n nrow B y). { apply Hs. apply (sat_basic n nrow Hnr B' mc'); auto. }
      assert (Hy0 : forall j, (2 <= j < nrow)%nat -> le 0 (y j)). { intros j Hj. unfold y. destruct (basic_dec n nrow Hnr mc' j ltac:(lia)) as [(i & Hi & <-)|N].
        - rewrite Eb by auto. apply (bs_rhs _ _ _ _ _ Hb'). destruct (Nat.eq_dec i n). subst. rewrite (bs_last _ _ _ _ _ Hb') in Hj. lia. lia.
        - rewrite Zb by auto. apply le_refl. }
      destruct (to_feasible B y HB Hy Hy0) as (Hfe & Hfo). rewrite <- Esol in *. split; auto. split; auto.
      assert (Eopt : y 1%nat = TT B' n 0). { unfold y. rewrite <- (Eb n) by lia. rewrite (bs_last _ _ _ _ _ Hb'). auto. } fold (y 1%nat). 
      destruct Hst as [Hst|[(E & Hn & Ho)|(E & Hn & q & Nq & Lq & Fq)]]; auto.
      * right. left. split; auto. split; auto. intros v Hv. destruct (of_feasible B v HB Hv) as (x & Hx & Hx0 & <-). rewrite Eopt. apply (optimal_le n nrow Hnr B' mc' x); auto. apply Hs. auto.
      * right. right. split; auto. split; auto. exists (- TT B' n q). split. apply lt_opp. auto. intros t Ht0 Ht.
        pose proof (sat_moved' n nrow Hnr B' mc' q t Hf Nq) as Hm. destruct (to_feasible B (moved n nrow B' mc' q t) HB) as (Hv & Hvo). apply Hs; auto. intros. apply far_nonneg; auto.
        exists (vars (moved n nrow B' mc' q t)). split; auto. rewrite Hvo, Eopt. pose proof (moved_basic n nrow Hnr B' mc' q t n Hb' (le_n n)) as U. rewrite (bs_last _ _ _ _ _ Hb') in U. rewrite U. ring.
Qed.
End Solve.

Lemma GetValid_ok : forall eqs p, ready eqs p -> wp (GetValid p) (fun v => feasible eqs v).
Proof.
  intros eqs p Hr. set (n := neq p). set (nrow := (2 +n nvar p +n nslk p)%nat). assert (Hnr : (2 <= nrow)%nat) by (unfold nrow; lia).
  pose proof (rd_basis _ _ Hr) as H0. fold n nrow in H0. pose proof (bs_len _ _ _ _ _ H0) as L. pose proof (bs_mc _ _ _ _ _ H0) as M. unfold GetValid. fold n nrow.
  apply wp_bind. apply wp_assertb. apply Nat.eqb_eq. auto. set (TT := T F nrow).
  apply wp_forn with (I := fun k v => length v = nvar p /\ (forall i, (i < k)%nat -> (2 <= nth i (mcr p) 0%nat < 2 +n nvar p)%nat -> nth (nth i (mcr p) 0%nat -n 2) v 0 = TT (tabA p) i 0%nat) /\
    (forall j, nonbasic n nrow (mcr p) j -> (2 <= j)%nat -> nth (j -n 2) v 0 = 0)).
  - lia.
  - split. apply repeat_length. split. intros; lia. intros. apply nth_repeat.
  - intros k v Hk (Lv & E & Z). fold n in Hk. pose proof (bs_rng _ _ _ _ _ H0 k ltac:(lia)). pose proof (ix0 n nrow Hnr k ltac:(lia)). pose proof (ix n nrow Hnr k (nth k (mcr p) 0%nat) ltac:(lia) ltac:(lia)).
    apply wp_bind. apply wp_vget with (d := 0%nat). lia. destruct (Nat.leb_spec 2 (nth k (mcr p) 0%nat)); [rewrite andb_true_l|rewrite andb_false_l].
    + destruct (Nat.ltb_spec (nth k (mcr p) 0%nat) (2 +n nvar p)).
      * apply wp_bind. apply wp_vget with (d := 0). lia. rewrite (T0 F nrow). apply wp_bind. apply wp_vget with (d := 0). lia. fold (T F nrow (tabA p) k (nth k (mcr p) 0%nat)). rewrite (bs_unit _ _ _ _ _ H0), Nat.eqb_refl by lia.
        apply wp_bind. apply wp_assertb. rewrite fabs1. apply lt_01. destruct (odiv_ok F (T F nrow (tabA p) k 0) 1 (one_zero F)) as (z & -> & Ez). apply wp_bind. apply wp_some. apply wp_vset. lia.
        assert (z = TT (tabA p) k 0%nat) as ->. { unfold TT. rewrite <- Ez. ring. } split. rewrite upd_length. auto. split.
        -- intros i Hi Hri. rewrite nth_upd by lia. destruct (Nat.eq_dec (nth k (mcr p) 0%nat -n 2) (nth i (mcr p) 0%nat -n 2)) as [E'|].
           ++ assert (nth k (mcr p) 0%nat = nth i (mcr p) 0%nat) by lia. apply (basis_inj F n nrow Hnr _ _ H0) in H5; try lia. subst; auto.
           ++ apply E; auto. destruct (Nat.eq_dec i k). subst. lia. lia.
        -- intros j Nj Hj. rewrite nth_upd_other. apply Z; auto. destruct Nj as (Hj' & N). specialize (N k ltac:(lia)). lia.
      * apply wp_some. split; auto. split; auto. intros i Hi Hri. apply E; auto. destruct (Nat.eq_dec i k). subst. lia. lia.
    + apply wp_some. split; auto. split; auto. intros i Hi Hri. apply E; auto. destruct (Nat.eq_dec i k). subst. lia. lia.
  - intros v (Lv & E & Z). apply (rd_link _ _ Hr); auto. fold n nrow. set (y := fun j => match find (fun i => nth i (mcr p) 0%nat =? j) (seq 0 n) with Some i => TT (tabA p) i 0%nat | None => 0 end).
    assert (Yb : forall i, (i < n)%nat -> y (nth i (mcr p) 0%nat) = TT (tabA p) i 0%nat).
    { intros i Hi. unfold y. destruct (find _ _) as [i'|] eqn:Ef. apply find_some in Ef. destruct Ef as (E1 & E2). apply in_seq in E1. apply Nat.eqb_eq in E2. apply (basis_inj F n nrow Hnr _ _ H0) in E2; try lia. subst; auto.
      exfalso. pose proof (find_none _ _ Ef i ltac:(apply in_seq; lia)) as X. simpl in X. rewrite Nat.eqb_refl in X. discriminate. }
    assert (Yn : forall j, (forall i, (i < n)%nat -> nth i (mcr p) 0%nat <> j) -> y j = 0).
    { intros j N. unfold y. destruct (find _ _) as [i'|] eqn:Ef; auto. apply find_some in Ef. destruct Ef as (E1 & E2). apply in_seq in E1. apply Nat.eqb_eq in E2. exfalso. apply (N i'); auto. lia. }
    exists y. split; [|split].
    + intros i Hi. unfold Eq. pose proof (bs_rng _ _ _ _ _ H0 i ltac:(lia)). rewrite (Lf_pick1 nrow Hnr _ _ (nth i (mcr p) 0%nat)); auto.
      * rewrite (bs_unit _ _ _ _ _ H0), Nat.eqb_refl, Yb by lia. unfold TT. ring.
      * intros j Hj Hne. destruct (basic_dec n nrow Hnr (mcr p) j Hj) as [(i' & Hi' & <-)|(_ & N)].
        -- rewrite (bs_unit _ _ _ _ _ H0) by auto. destruct (Nat.eqb_spec i i'). subst; congruence. ring.
        -- rewrite Yn. ring. intros. apply N. lia.
    + intros j Hj. destruct (basic_dec n nrow Hnr (mcr p) j ltac:(lia)) as [(i & Hi & <-)|(_ & N)].
      * destruct (Nat.eq_dec i n). subst i. rewrite (bs_last _ _ _ _ _ H0) in Hj. lia. rewrite Yb by lia. apply (bs_rhs _ _ _ _ _ H0). lia.
      * rewrite Yn. apply le_refl. intros. apply N. lia.
    + intros k Hk. destruct (basic_dec n nrow Hnr (mcr p) (2 +n k) ltac:(lia)) as [(i & Hi & Ei)|N].
      * destruct (Nat.eq_dec i n). subst i. rewrite (bs_last _ _ _ _ _ H0) in Ei. lia. rewrite <- Ei, Yb by lia. rewrite <- E by lia. rewrite Ei. f_equal. lia.
      * rewrite Yn by (intros; apply N; lia). pose proof (Z (2 +n k)%nat N ltac:(lia)) as U. replace (2 +n k -n 2)%nat with k in U by lia. auto.
Qed.
End P.
