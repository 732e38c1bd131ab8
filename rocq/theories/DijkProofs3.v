(** Distance to the border of a region. *)
From Coq Require Import List Arith Bool Lia Permutation.
Import ListNotations.
From Verif Require Import Imp DijkModel DijkSpec DijkProofs1 DijkProofs2.

Section Fill.
Variables (tab : list (option nat)) (flg : list nat) (nedge f : nat).
Notation n := (length flg).
Hypothesis T : table_ok tab n nedge.
Variable pq : pqueue nat.
Hypothesis PQ : pq_ok nat_dist pq.
Notation S := (border tab nedge flg f).
Definition keep (v : nat) : bool := nth v flg 0 =? f.
Definition bndb (s : nat) : bool := (nth s flg 0 =? f) && existsb (fun k => match slot tab nedge s k with None => true | Some j => negb (nth j flg 0 =? f) end) (seq 0 nedge).
Definition rstep (u v : nat) : Prop := step1 tab n nedge u v /\ nth v flg 0 = f.

Lemma bndb_iff : forall s, s < n -> (bndb s = true <-> S s).
Proof.
  intros s Hs. unfold bndb. rewrite andb_true_iff, existsb_exists, Nat.eqb_eq. split.
  - intros (A & k & K & B). apply in_seq in K. split; [auto|split; [auto|]]. exists k. split; [lia|]. destruct (slot tab nedge s k); auto.
    apply negb_true_iff, Nat.eqb_neq in B. auto.
  - intros (A & B & k & K & C). split; auto. exists k. split; [apply in_seq; lia|]. destruct (slot tab nedge s k); auto.
    apply negb_true_iff, Nat.eqb_neq. auto.
Qed.
Lemma slot_lt' : forall u k j, u < n -> k < nedge -> slot tab nedge u k = Some j -> j < n.
Proof.
  intros u k j Hu Hk E. destruct T as (A & B & C). apply C. rewrite <- E. unfold slot. apply nth_In. eapply slot_lt; eauto.
Qed.
Lemma fill_edge : forall u v, edge n (fun _ => nedge) (ktgt tab nedge keep) u v <-> rstep u v.
Proof.
  intros u v. unfold rstep, step1, adjacent, edge, ktgt, keep. split.
  - intros (A & k & B & C). destruct (slot tab nedge u k) as [j|] eqn:E; [|discriminate]. destruct (Nat.eqb_spec (nth j flg 0) f) as [F|F]; [|discriminate].
    injection C as ->. split; auto. split; auto. exists k. auto.
  - intros ((A & k & B & C) & F). split; auto. exists k. rewrite C, F, Nat.eqb_refl. auto.
Qed.
Lemma walk_flag : forall v d, walk S (edge n (fun _ => nedge) (ktgt tab nedge keep)) one v d -> nth v flg 0 = f.
Proof. intros v d W. destruct W as [s A|u d v W H]; [apply A|]. apply fill_edge in H. apply H. Qed.

Definition fmeas (s : list (option nat) * list (option nat) * list (nat * nat) * nat * list nat) : nat :=
  let '(_, _, que, icnt, _) := s in length que + (n - icnt) * nedge.
Definition finv (s : list (option nat) * list (option nat) * list (nat * nat) * nat * list nat) : Prop :=
  let '(aDist, aOrder, que, icnt, log) := s in
  outer nat_dist n (fun _ => nedge) (ktgt tab nedge keep) one S log (dfun aDist) que /\ length aDist = n /\ length aOrder = n /\ rank_table log aOrder /\ icnt = length log.

Lemma fill_ok : wp (Dijkstra_FillFromBoundary pq f flg tab) (fun r => let '(aDist, aOrder, log) := r in
  visit_order S rstep one log /\ rank_table log aOrder /\ length aDist = n /\ length aOrder = n /\
  (forall v d, nth v aDist None = Some d <-> shortest S rstep one v d) /\ (forall v, nth v aDist None = None <-> ~ reachable S rstep one v)).
Proof.
  unfold Dijkstra_FillFromBoundary. destruct T as (Tn & Tl & Tv).
  assert (NE : length tab / n = nedge) by (rewrite Tl; apply div_edge; auto). rewrite NE.
  apply wp_bind, wp_assertb; [apply negb_true_iff, Nat.eqb_neq; lia|].
  assert (SL : forall s, S s -> s < n) by (intros s H; apply H).
  apply wp_bind. apply (wp_forn _ (fun it (s : list (option nat) * list (nat * nat)) => length (fst s) = n /\ length (snd s) <= it /\
    (forall v, nth v (fst s) None = if (v <? it) && bndb v then Some 0 else None) /\
    (forall v d, In (v, d) (snd s) <-> v < it /\ bndb v = true /\ d = 0))).
  - lia.
  - cbn [fst snd length]. rewrite repeat_length. split; [auto|split; [lia|split]].
    + intros v. rewrite nth_repeat. auto.
    + intros v d. split; [intros []|lia].
  - intros it (aDist & que) Hit (L1 & L2 & H1 & H2). cbn [fst snd] in *.
    assert (Next : forall aDist' que', length aDist' = n -> length que' <= length que + 1 ->
       (forall v, nth v aDist' None = if (v =? it) && bndb it then Some 0 else nth v aDist None) ->
       (forall v d, In (v, d) que' <-> In (v, d) que \/ (v = it /\ bndb it = true /\ d = 0)) ->
       length aDist' = n /\ length que' <= Datatypes.S it /\ (forall v, nth v aDist' None = if (v <? Datatypes.S it) && bndb v then Some 0 else None) /\
       (forall v d, In (v, d) que' <-> v < Datatypes.S it /\ bndb v = true /\ d = 0)).
    { intros aDist' que' A1 A2 A3 A4. split; [auto|split; [lia|split]].
      - intros v. rewrite A3, H1. destruct (Nat.eqb_spec v it) as [->|N].
        + rewrite Nat.ltb_irrefl. replace (it <? Datatypes.S it) with true by (symmetry; apply Nat.ltb_lt; lia). destruct (bndb it); auto.
        + cbn [andb]. destruct (Nat.ltb_spec v it), (Nat.ltb_spec v (Datatypes.S it)); auto; lia.
      - intros v d. rewrite A4, H2. split.
        + intros [(X & Y & Z)|(-> & Y & Z)]; repeat split; auto.
        + intros (X & Y & Z). destruct (Nat.eq_dec v it) as [->|]; [right; auto|left; repeat split; auto; lia]. }
    assert (Same : bndb it = false -> length aDist = n /\ length que <= Datatypes.S it /\ (forall v, nth v aDist None = if (v <? Datatypes.S it) && bndb v then Some 0 else None) /\
       (forall v d, In (v, d) que <-> v < Datatypes.S it /\ bndb v = true /\ d = 0)).
    { intros B. apply Next; auto; [lia| |].
      - intros v. rewrite B, andb_false_r. auto.
      - intros v d. rewrite B. split; auto. intros [X|(_ & X & _)]; [auto|discriminate]. }
    apply wp_bind. apply (wp_vget _ 0); [lia|]. destruct (Nat.eqb_spec (nth it flg 0) f) as [F|F]; cbn [negb].
    2:{ apply wp_some. cbn [fst snd]. apply Same. unfold bndb. rewrite (proj2 (Nat.eqb_neq _ _) F). auto. }
    apply wp_bind. set (tst := fun k => match slot tab nedge it k with None => true | Some j => negb (nth j flg 0 =? f) end).
    assert (BE : bndb it = existsb tst (seq 0 nedge)) by (unfold bndb; rewrite F, Nat.eqb_refl; auto).
    apply (wp_forb _ (fun k b => b = false /\ existsb tst (seq 0 k) = false) _).
    + lia.
    + auto.
    + intros k b Hk (-> & E). apply wp_bind. apply (wp_vget _ None); [rewrite Tl; nia|]. change (nth (it * nedge + k) tab None) with (slot tab nedge it k).
      assert (HT : tst k = true -> existsb tst (seq 0 nedge) = true) by (intros X; apply existsb_exists; exists k; split; auto; apply in_seq; lia).
      assert (KK : true = bndb it -> wp (if negb true then Some (aDist, que) else aDist <- vset aDist it (Some 0) ;; Some (aDist, pq_push pq que (it, 0)))
          (fun s : list (option nat) * list (nat * nat) => length (fst s) = n /\ length (snd s) <= Datatypes.S it /\ (forall v, nth v (fst s) None = if (v <? Datatypes.S it) && bndb v then Some 0 else None) /\
            (forall v d, In (v, d) (snd s) <-> v < Datatypes.S it /\ bndb v = true /\ d = 0))).
      { intros B. cbn [negb]. apply wp_bind. apply wp_vset; [lia|]. apply wp_some. cbn [fst snd]. apply Next.
        - rewrite upd_length. auto.
        - rewrite (Permutation_length (proj1 (pq_nat _ PQ) _ _)). cbn [length]. lia.
        - intros v. rewrite nth_upd by lia. rewrite <- B, andb_true_r. destruct (Nat.eq_dec it v), (Nat.eqb_spec v it); auto; lia.
        - intros v d. split.
          + intros I. apply (Permutation_in _ (proj1 (pq_nat _ PQ) _ _)) in I. destruct I as [I|I]; auto. injection I as <- <-. auto.
          + intros [I|(-> & _ & ->)]; apply (Permutation_in _ (Permutation_sym (proj1 (pq_nat _ PQ) _ _))); cbn; auto. }
      destruct (slot tab nedge it k) as [j|] eqn:ES.
      * assert (Hj : j < n) by (apply (slot_lt' it k); auto; lia). apply wp_bind. apply (wp_vget _ 0); [auto|].
        destruct (nth j flg 0 =? f) eqn:EJ; cbn [negb]; apply wp_some; cbn [fst snd].
        -- split; auto. rewrite seq_S, existsb_app, E. cbn. unfold tst. rewrite ES, EJ. auto.
        -- apply KK. rewrite BE. symmetry. apply HT. unfold tst. rewrite ES, EJ. auto.
      * apply wp_some. cbn [fst snd]. apply KK. rewrite BE. symmetry. apply HT. unfold tst. rewrite ES. auto.
    + intros b (-> & E). cbn [negb]. apply wp_some. cbn [fst snd]. apply Same. congruence.
  - intros (aDist & que) (L1 & L2 & H1 & H2). cbn [fst snd] in *. apply wp_bind.
    apply (wp_whilef _ fmeas finv).
    + unfold fmeas. cbn [length]. nia.
    + unfold finv. rewrite repeat_length. split; [|auto using rank_nil]. apply outer_start.
      * intros s Hs. unfold dfun. rewrite H1. rewrite (proj2 (Nat.ltb_lt _ _)) by apply Hs. rewrite (proj2 (bndb_iff s (proj1 Hs)) Hs). auto.
      * intros v d. unfold dfun. rewrite H1. destruct (Nat.ltb_spec v n); cbn [andb]; [|discriminate]. destruct (bndb v) eqn:B; [|discriminate].
        intros E. injection E as <-. split; [apply bndb_iff; auto|]. split; auto. apply H2. auto.
      * intros v d I. apply H2 in I. destruct I as (A & B & C). split; auto. apply bndb_iff; auto.
    + clear aDist que L1 L2 H1 H2. intros ((((aDist & aOrder) & que) & icnt) & log) (O & L1 & L2 & RT & ->) C.
      assert (Q : que <> []) by (intros ->; discriminate). destruct (proj2 (pq_nat _ PQ) que Q) as ((v & d) & q' & EP & PP & PM).
      assert (LQ : length que = Datatypes.S (length q')) by (rewrite (Permutation_length PP); auto).
      split; [unfold fmeas; cbv iota beta; rewrite LQ; apply Nat.lt_0_succ|]. rewrite EP. cbn [bind].
      assert (O' : outer nat_dist n (fun _ => nedge) (ktgt tab nedge keep) one S log (dfun aDist) ((v, d) :: q')) by exact (core_perm nat_dist _ _ _ _ _ _ _ _ _ _ PP O).
      assert (W := c_q _ _ _ _ _ _ _ _ _ _ O' v d (or_introl eq_refl)).
      assert (V : v < n) by (exact (walk_lt nat_dist n (fun _ => nedge) (ktgt tab nedge keep) one S (ktgt_lt tab n nedge T keep) SL v d W)).
      apply wp_bind. apply (wp_vget _ None); [lia|]. destruct (nth v aOrder None) as [o|] eqn:EO.
      * apply wp_some. split.
        -- split; auto. eapply core_drop; eauto. apply RT in EO. eapply nth_error_In; eauto.
        -- unfold fmeas; cbv iota beta. lia.
      * assert (Nv : ~ In v log) by (apply (rank_none _ _ _ RT); auto).
        assert (I0 := inner_start nat_dist n (fun _ => nedge) _ _ S (ktgt_lt tab n nedge T keep) SL _ _ _ _ _ O' Nv ltac:(intros y Hy; apply (PM y); apply (Permutation_in _ (Permutation_sym PP)); right; auto)).
        apply wp_bind. apply (wp_vget _ 0); [auto|]. apply wp_bind. apply wp_assertb; [apply Nat.eqb_eq; eapply walk_flag; eauto|].
        apply wp_bind. apply wp_vset; [lia|]. apply wp_bind.
        assert (RA : rank_table (log ++ [v]) (upd aOrder v (Some (length log)))) by (apply rank_add; auto; lia).
        apply (wp_forn _ (fun k (s : list (option nat) * list (nat * nat)) => inner nat_dist n (fun _ => nedge) (ktgt tab nedge keep) one S v d k (log ++ [v]) (dfun (fst s)) (snd s) /\ length (fst s) = n /\ length (snd s) <= length q' + k)).
        -- lia.
        -- cbn [fst snd]. split; auto. split; auto. lia.
        -- intros k (aDist1 & q1) Hk (I & L3 & L4). cbn [fst snd] in *. apply wp_bind. apply (wp_vget _ None); [rewrite Tl; nia|].
          change (nth (v * nedge + k) tab None) with (slot tab nedge v k).
          destruct (slot tab nedge v k) as [x|] eqn:ES.
          2:{ apply wp_some. cbn [fst snd]. split; [eapply inner_skip; eauto; [lia|unfold ktgt; rewrite ES; auto]|]. split; [auto|lia]. }
          assert (Xn : x < n) by (apply (slot_lt' v k); auto; lia).
          apply wp_bind. apply (wp_vget _ 0); [auto|]. destruct (nth x flg 0 =? f) eqn:EF; cbn [negb].
          2:{ apply wp_some. cbn [fst snd]. split; [eapply inner_skip; eauto; [lia|unfold ktgt, keep; rewrite ES, EF; auto]|]. split; [auto|lia]. }
          assert (EX : ktgt tab nedge keep v k = Some x) by (unfold ktgt, keep; rewrite ES, EF; auto).
          destruct (relax_hop tab n nedge T pq PQ keep S _ _ _ _ _ _ _ I L3 V ltac:(lia) EX) as (R1 & R2).
          apply wp_bind. apply (wp_vget _ None); [rewrite upd_length; lia|].
          destruct (nth x (upd aOrder v (Some (length log))) None) as [o1|] eqn:EO1.
          { apply wp_some. cbn [fst snd]. split; [|split; [auto|lia]].
            destruct (inner_fixed nat_dist n (fun _ => nedge) _ _ S (one_pos) _ _ _ _ _ k x I ltac:(lia) EX) as (dx & E1 & E2).
            - apply RA in EO1. eapply nth_error_In; eauto.
            - eapply R1; eauto. }
          apply wp_bind. apply (wp_vget _ None); [lia|]. destruct (nth x aDist1 None) as [dx|] eqn:ED.
          ++ destruct (Nat.ltb_spec (d + 1) dx).
             ** apply wp_bind. apply wp_vset; [lia|]. apply wp_some. cbn [fst snd]. rewrite upd_length, (Permutation_length (proj1 (pq_nat _ PQ) _ _)). cbn [length].
                split; [apply R2; intros ? E; injection E as <-; auto|]. split; auto. lia.
             ** apply wp_some. cbn [fst snd]. split; [eapply R1; eauto|]. split; [auto|lia].
          ++ apply wp_bind. apply wp_vset; [lia|]. apply wp_some. cbn [fst snd]. rewrite upd_length, (Permutation_length (proj1 (pq_nat _ PQ) _ _)). cbn [length].
             split; [apply R2; discriminate|]. split; auto. lia.
        -- intros (aDist1 & q1) (I & L3 & L4). cbn [fst snd] in *. apply wp_some. split.
          ++ split; [eapply (inner_end _ _ (fun _ => nedge)); eauto|]. rewrite upd_length, app_length. cbn [length]. split; auto.
          ++ unfold fmeas; cbv iota beta. assert (length (log ++ [v]) <= n).
             { destruct I as (I & _). apply (lt_length n); [apply (c_nd _ _ _ _ _ _ _ _ _ _ I)|apply (c_lt _ _ _ _ _ _ _ _ _ _ I)]. }
             rewrite app_length in H. cbn [length] in H. assert ((n - (length log + 1)) * nedge + nedge = (n - length log) * nedge).
             { replace (n - length log) with ((n - (length log + 1)) + 1) by lia. lia. } lia.
    + intros ((((aDist' & aOrder) & que') & icnt) & log) (O & L1' & L2' & RT & ->) C. destruct que'; [|discriminate].
      destruct (core_final _ _ _ _ _ _ _ _ _ O) as (F1 & F2 & F3); [auto|]. apply wp_some.
      split; [|split; [auto|split; [auto|split; [auto|split]]]].
      * exact (proj1 (visit_ext _ S S _ _ one one (fun s => iff_refl _) fill_edge (fun _ _ _ => eq_refl) log) F3).
      * intros v d. rewrite <- (shortest_ext nat_dist S S _ _ one one (fun s => iff_refl _) fill_edge (fun _ _ _ => eq_refl) v d). apply F1.
      * intros v. rewrite <- (reach_ext nat_dist S S _ _ one one (fun s => iff_refl _) fill_edge (fun _ _ _ => eq_refl) v). apply F2.
Qed.
End Fill.
