(** C42: parallel_for under every schedule. *)
From Coq Require Import List Arith Bool Lia.
Import ListNotations.
From Verif Require Import Imp ParModel ParProofs.

Definition count1 := count_occ Nat.eq_dec.
Definition eqpair : forall a b : nat * nat, {a = b} + {a <> b}. Proof. decide equality; apply Nat.eq_dec. Defined.
Definition count2 := count_occ eqpair.
Lemma c1 : forall n i, count_occ Nat.eq_dec (concat (map jobs1 (seq 0 n))) i = if i <? n then 1 else 0.
Proof.
  intros n i. induction n as [|n IH]; [destruct i; auto|]. rewrite seq_S, map_app, concat_app, count_occ_app, IH. cbn [Nat.add map jobs1 concat app count_occ]. destruct (Nat.eq_dec n i) as [->|N]; [rewrite Nat.ltb_irrefl, (proj2 (Nat.ltb_lt i (S i))) by lia; auto|].
  destruct (Nat.ltb_spec i n), (Nat.ltb_spec i (S n)); lia.
Qed.
Lemma c2a : forall n1 j i j', count_occ eqpair (jobs2 n1 j) (i, j') = if (i <? n1) && (j =? j') then 1 else 0.
Proof.
  intros n1 j i j'. unfold jobs2. induction n1 as [|n IH]; [destruct i; auto|]. rewrite seq_S, map_app, count_occ_app, IH. cbn [Nat.add map count_occ]. destruct (eqpair (n, j) (i, j')) as [E|N].
  - injection E as -> ->. rewrite Nat.ltb_irrefl, (proj2 (Nat.ltb_lt i (S i))), Nat.eqb_refl by lia. auto.
  - destruct (Nat.eqb_spec j j') as [->|]; [|rewrite !andb_false_r; auto]. assert (n <> i) by congruence. rewrite !andb_true_r. destruct (Nat.ltb_spec i n), (Nat.ltb_spec i (S n)); lia.
Qed.
Lemma c2 : forall n1 n i j, count_occ eqpair (concat (map (jobs2 n1) (seq 0 n))) (i, j) = if (i <? n1) && (j <? n) then 1 else 0.
Proof.
  intros n1 n i j. induction n as [|n IH]; [cbn; rewrite andb_false_r; auto|]. rewrite seq_S, map_app, concat_app, count_occ_app, IH. cbn [Nat.add map concat]. rewrite app_nil_r, c2a. destruct (i <? n1); cbn [andb]; auto. destruct (Nat.eqb_spec n j) as [->|N]; [rewrite Nat.ltb_irrefl, (proj2 (Nat.ltb_lt j (S j))) by lia; auto|].
  destruct (Nat.ltb_spec j n), (Nat.ltb_spec j (S n)); lia.
Qed.
Lemma jobs2_len : forall n1 i, length (jobs2 n1 i) = n1. Proof. intros. unfold jobs2. rewrite map_length, seq_length. auto. Qed.

(** One index: whatever the interleaving and whichever calls throw, no index is run twice or out of range.  When all workers have finished and no exception is raised, each index has been run exactly once. *)
Theorem C42_once : forall M num hardware target sched s, num + nthreads hardware target <= M ->
  prun M num jobs1 sched (pst0 (nthreads hardware target)) = Some s ->
  (forall i, count1 (calls s) i <= if i <? num then 1 else 0) /\
  (0 < nthreads hardware target -> finished s = true -> raises s = false -> forall i, count1 (calls s) i = if i <? num then 1 else 0).
Proof.
  intros M num hw tg sched s R H. split.
  - intros i. rewrite <- c1. apply (any_counts Nat.eq_dec M num jobs1 1 ltac:(auto) _ sched s R H).
  - intros W F NR i. unfold count1. rewrite <- c1. apply (final_counts Nat.eq_dec M num jobs1 1 ltac:(auto) _ sched s W R H F NR).
Qed.
Print Assumptions C42_once.
(** Two indices. *)
Theorem C42_once2 : forall M num1 num2 hardware target sched s, num2 + nthreads hardware target <= M ->
  prun M num2 (jobs2 num1) sched (pst0 (nthreads hardware target)) = Some s ->
  (forall i j, count2 (calls s) (i, j) <= if (i <? num1) && (j <? num2) then 1 else 0) /\
  (0 < nthreads hardware target -> finished s = true -> raises s = false -> forall i j, count2 (calls s) (i, j) = if (i <? num1) && (j <? num2) then 1 else 0).
Proof.
  intros M num1 num hw tg sched s R H. assert (K : forall i, i < num -> length (jobs2 num1 i) <= num1) by (intros; rewrite jobs2_len; auto). split.
  - intros i j. rewrite <- c2. apply (any_counts eqpair M num (jobs2 num1) num1 K _ sched s R H).
  - intros W F NR i j. unfold count2. rewrite <- c2. apply (final_counts eqpair M num (jobs2 num1) num1 K _ sched s W R H F NR).
Qed.
Print Assumptions C42_once2.

(** Every schedule ends: the number of steps is bounded, and while some worker has not finished some worker can make a step. *)
Theorem C42_terminates : forall M num W sched s, num + W <= M -> prun M num jobs1 sched (pst0 W) = Some s ->
  length sched <= (num + W) * 7 /\ (finished s = false -> exists w, w < W /\ forall throws, exists s', pstep M num jobs1 s w throws = Some s').
Proof.
  intros M num W sched s R H. split; [apply (steps_bound Nat.eq_dec M num jobs1 1 ltac:(auto) W sched s R H)|]. intros F. destruct (no_deadlock M num jobs1 s F) as (w & L & X). exists w. split; auto. rewrite <- (i_len _ _ _ _ _ _ _ _ (inv_run Nat.eq_dec M num jobs1 1 ltac:(auto) W R sched 0 _ _ (inv0 Nat.eq_dec M num jobs1 1 W) H)). auto.
Qed.
Print Assumptions C42_terminates.

(** A throwing call: the error flag is set only by a worker that ends with the exception, so the caller gets it; after that at most one call per other worker is started. *)
Theorem C42_error : forall M num W sched1 s1 sched2 s2, num + W <= M -> prun M num jobs1 sched1 (pst0 W) = Some s1 -> has_error s1 = true -> prun M num jobs1 sched2 s1 = Some s2 ->
  raises s2 = true /\ length (calls s2) <= length (calls s1) + (W - 1).
Proof.
  intros M num W c1 s1 c2 s2 R H1 E H2. split.
  - assert (H : prun M num jobs1 (c1 ++ c2) (pst0 W) = Some s2). { unfold prun in *. clear - H1 H2. revert H1. generalize (@pst0 nat W) as s. induction c1 as [|(w, b) c1 IH]; intros s H1; cbn [app foldM] in *; [injection H1 as ->; auto|]. destruct (pstep M num jobs1 s w b); cbn [bind] in *; [|discriminate]. auto. }
    assert (E2 : has_error s2 = true). { clear - E H2. unfold prun in H2. revert s1 E H2. induction c2 as [|(w, b) c2 IH]; intros s1 E H2; cbn [foldM] in H2; [injection H2 as <-; auto|]. destruct (pstep M num jobs1 s1 w b) as [s|] eqn:P; cbn [bind] in H2; [|discriminate]. apply (IH s); auto. apply (err_step M num jobs1 s1 w b s E P). }
    destruct (err_failed Nat.eq_dec M num jobs1 1 ltac:(auto) W _ _ R H E2) as (w & X). unfold raises. apply existsb_exists. exists Failed. split; auto. eapply nth_error_In; eauto.
  - assert (X := after_error Nat.eq_dec M num jobs1 1 ltac:(auto) W c1 c2 s1 s2 R H1 E H2). lia.
Qed.
Print Assumptions C42_error.
(** A call that throws is not lost: the caller gets an exception. *)
Lemma sticky : forall M num (jobs : nat -> list nat) sched s s', prun M num jobs sched s = Some s' -> (exists w x, nth_error (workers s) w = Some x /\ (x = Catch \/ x = Failed)) -> exists w x, nth_error (workers s') w = Some x /\ (x = Catch \/ x = Failed).
Proof.
  unfold prun. induction sched as [|(w, b) sched IH]; intros s s' H (w0 & x0 & X & Q); cbn [foldM] in H; [injection H as <-; eauto|]. destruct (pstep M num jobs s w b) as [s1|] eqn:P; cbn [bind] in H; [|discriminate]. apply (IH s1 s' H). clear IH H.
  unfold pstep, vget in P. destruct (nth_error (workers s) w) as [y|] eqn:Y; cbn [bind] in P; [|discriminate].
  assert (V : forall z nx e cs, bind (vset (workers s) w z) (fun ws => Some (Pst nx e ws cs)) = Some s1 -> (w = w0 -> z = Failed) -> exists w x, nth_error (workers s1) w = Some x /\ (x = Catch \/ x = Failed)).
  { intros z nx e cs A B. destruct (vset_spec _ _ _ z Y) as (ws & V1 & J & _). rewrite V1 in A. cbn [bind] in A. injection A as <-. cbn [workers]. exists w0. rewrite J. destruct (Nat.eqb_spec w0 w) as [E|]; [exists z; rewrite B by auto; auto|eauto]. }
  destruct (Nat.eq_dec w w0) as [->|N].
  - assert (y = x0) by congruence. subst y. destruct Q as [->| ->]; [|discriminate]. eapply V; [exact P|auto].
  - destruct y as [|idx|idx|l|l| | |]; try discriminate; try (eapply V; [exact P|congruence]).
    + destruct (num <=? idx); eapply V; try exact P; congruence.
    + destruct (has_error s); eapply V; try exact P; congruence.
    + destruct l; eapply V; try exact P; congruence.
    + destruct b; eapply V; try exact P; congruence.
Qed.
Theorem C42_throw_raises : forall M num W sched1 s1 w todo s1' sched2 s2, prun M num jobs1 sched1 (pst0 W) = Some s1 -> nth_error (workers s1) w = Some (InCall todo) -> pstep M num jobs1 s1 w true = Some s1' -> prun M num jobs1 sched2 s1' = Some s2 -> finished s2 = true -> raises s2 = true.
Proof.
  intros M num W c1 s1 w todo s1' c2 s2 H1 X P H2 F. unfold pstep, vget in P. rewrite X in P. cbn [bind] in P. destruct (vset_spec _ _ _ Catch X) as (ws & V1 & J & _). rewrite V1 in P. cbn [bind] in P. injection P as <-.
  destruct (sticky _ _ _ _ _ _ H2) as (w2 & x & A & B); [exists w, Catch; cbn [workers]; rewrite J, Nat.eqb_refl; auto|]. unfold finished in F. rewrite forallb_forall in F. assert (FX := F x (nth_error_In _ _ A)). destruct B as [->| ->]; [discriminate|]. unfold raises. apply existsb_exists. exists Failed. split; auto. eapply nth_error_In; eauto.
Qed.
Print Assumptions C42_throw_raises.

(** If the concurrency is reported as zero and no target is given, nothing is run. *)
Theorem C42_zero_refuted : forall M num sched s, prun M num jobs1 sched (pst0 (nthreads 0 0)) = Some s -> s = pst0 0 /\ finished s = true /\ raises s = false /\ calls s = [].
Proof.
  intros M num [|(w, b) sched] s H; unfold prun in H; cbn [foldM] in H; [injection H as <-; auto|]. destruct w; discriminate.
Qed.
Print Assumptions C42_zero_refuted.
(** If the counter can wrap around, an index is run twice: unsigned char, 255 indices, two workers. *)
Definition turn (w : nat) : list (nat * bool) := [(w, false); (w, false); (w, false); (w, false); (w, false); (w, false)].
Definition wrap_schedule : list (nat * bool) := concat (repeat (turn 0) 255) ++ [(0, false); (0, false)] ++ turn 1.
Theorem C42_wrap_refuted : exists s, prun (2 ^ 8) 255 jobs1 wrap_schedule (pst0 2) = Some s /\ count1 (calls s) 0 = 2.
Proof. eexists. split; [vm_compute; reflexivity|]. vm_compute. reflexivity. Qed.
Print Assumptions C42_wrap_refuted.

(** A finished schedule of three workers over four indices, and one in which a call throws. *)
Fixpoint settle (fuel : nat) (M num : nat) (s : pst nat) : pst nat := match fuel with 0 => s | S fuel => match find (fun w => match pstep M num jobs1 s w false with Some _ => true | None => false end) (seq 0 (length (workers s))) with Some w => match pstep M num jobs1 s w false with Some s => settle fuel M num s | None => s end | None => s end end.
Fixpoint settle_sched (fuel : nat) (M num : nat) (s : pst nat) : list (nat * bool) := match fuel with 0 => [] | S fuel => match find (fun w => match pstep M num jobs1 s w false with Some _ => true | None => false end) (seq 0 (length (workers s))) with Some w => match pstep M num jobs1 s w false with Some s => (w, false) :: settle_sched fuel M num s | None => [] end | None => [] end end.
Example finishes : exists s sched, prun (2 ^ 8) 4 jobs1 sched (pst0 3) = Some s /\ finished s = true /\ raises s = false /\ 4 + 3 <= 2 ^ 8 /\ calls s = [0; 1; 2; 3].
Proof. exists (settle 100 (2 ^ 8) 4 (pst0 3)), (settle_sched 100 (2 ^ 8) 4 (pst0 3)). split; [vm_compute; reflexivity|]. split; [vm_compute; reflexivity|]. split; [vm_compute; reflexivity|]. split; [apply (Nat.leb_le (4 + 3) (2 ^ 8)); vm_compute; reflexivity|vm_compute; reflexivity]. Qed.
Definition sched_throw : list (nat * bool) := [(0, false); (1, false); (0, false); (1, false); (0, false); (1, false); (0, false); (1, false); (0, true); (0, false)].
Example throws : exists s1 s2, prun (2 ^ 8) 4 jobs1 sched_throw (pst0 2) = Some s1 /\ has_error s1 = true /\ prun (2 ^ 8) 4 jobs1 [(1, false); (1, false); (1, false); (1, false); (1, false)] s1 = Some s2 /\ finished s2 = true /\ calls s2 = [0; 1].
Proof. eexists. eexists. split; [vm_compute; reflexivity|]. split; [reflexivity|]. split; [vm_compute; reflexivity|]. auto. Qed.
