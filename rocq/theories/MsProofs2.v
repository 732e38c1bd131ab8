(** Adding columns of slaves to columns of masters. *)
From Coq Require Import List Arith Bool ZArith Lia Ring.
Import ListNotations.
From Verif Require Import Imp Alg SpModel SpSpec SpProofs1 SpProofs4 SpProofs5 MsModel MsSpec MsProofs1.

Section P.
Variable K : cring.
Add Ring Kr : (rlaws K).
Local Open Scope K_scope.

Lemma sumn_app : forall m n (f : nat -> K), sumn (m + n) f = sumn m f + sumn n (fun i => f (m + i)%nat).
Proof.
  intros m n f. induction n as [|n IH]; [rewrite Nat.add_0_r, sumn_0; ring|].
  rewrite Nat.add_succ_r, !sumn_S, IH. ring.
Qed.
Lemma sumn_blocks : forall nb n (f : nat -> K), sumn (nb * n) f = sumn nb (fun t => sumn n (fun b => f (t * n + b)%nat)).
Proof.
  intros nb n f. induction nb as [|nb IH]; [reflexivity|].
  rewrite sumn_S, <- IH. replace (S nb * n)%nat with (nb * n + n)%nat by lia. apply sumn_app.
Qed.

Variable A : matsp K.
Hypothesis WF : wf A.
Hypothesis SQ : square A.
Notation nr := (nrowdim A).
Notation nb := (nrowblk A).
Notation p q a b := (q * (nr * nr) + a * nr + b)%nat.
Notation D := (D K A).
Variable ms : list (option nat).
Hypothesis MS : ms_ok nb nr ms.
Hypothesis CL : ms_closed A ms.
Notation shape := (shape K A).
Notation clear := (clear K A).
Notation en M i j := (dense M (i / nr) (i mod nr) (j / nr) (j mod nr)).

(** component b of node t is carried by component b of node J *)
Definition mst (t b J : nat) : bool := match nth (t * nr + b) ms None with Some m => m =? J * nr + b | None => false end.

Definition col_body (ino : nat) (st : list K * list K * list (option nat)) : option (list K * list K * list (option nat)) :=
    let '(c, d, buf) := st in
    buf <- ms_mark A ino buf ;;
    c <- forn 0 nr (fun jlen1 c =>
      f <- vget ms (ino * nr + jlen1) ;;
      match f with
      | None => Some c
      | Some jdof0 =>
        let jno0 := (jdof0 / nr)%nat in
        assertb (jdof0 - jno0 * nr =? jlen1)%nat ;;;
        icrs0 <- ms_find A buf jno0 ;;
        forn 0 nr (fun ilen c => v <- vget d (p ino ilen jlen1) ;; vmod c (p icrs0 ilen jlen1) (fun t => t + v)) c
      end) c ;;
    lo <- vget (col_ind A) ino ;; hi <- vget (col_ind A) (ino + 1) ;;
    '(c, d) <- forn lo hi (fun icrs1 st =>
      jno1 <- vget (row_ptr A) icrs1 ;;
      assertb (jno1 <? nb)%nat ;;;
      forn 0 nr (fun jlen1 st =>
        let '(c, d) := st in
        f <- vget ms (jno1 * nr + jlen1) ;;
        match f with
        | None => Some (c, d)
        | Some jdof0 =>
          let jno0 := (jdof0 / nr)%nat in
          assertb (jno0 <? nb)%nat ;;;
          assertb (jdof0 - jno0 * nr =? jlen1)%nat ;;;
          if (ino =? jno0)%nat then
            d <- forn 0 nr (fun ilen d => v <- vget c (p icrs1 ilen jlen1) ;; vmod d (p jno0 ilen jlen1) (fun t => t + v)) d ;;
            Some (c, d)
          else
            icrs0 <- ms_find A buf jno0 ;;
            c <- forn 0 nr (fun ilen c => v <- vget c (p icrs1 ilen jlen1) ;; vmod c (p icrs0 ilen jlen1) (fun t => t + v)) c ;;
            Some (c, d)
        end) st) (c, d) ;;
    buf <- ms_unmark A ino buf ;;
    Some (c, d, buf).

Lemma dof_get : forall t b, t < nb -> b < nr -> vget ms (t * nr + b) = Some (nth (t * nr + b) ms None).
Proof. intros. apply vget_nth. destruct MS as (L & _). rewrite L. apply idx_lt; auto. Qed.
Lemma dof_div : forall t b, b < nr -> ((t * nr + b) / nr = t /\ (t * nr + b) mod nr = b)%nat.
Proof.
  intros t b Hb. rewrite Nat.div_add_l, Nat.div_small by lia. split; [lia|]. rewrite Nat.add_comm, Nat.mod_add by lia. apply Nat.mod_small; auto.
Qed.
(** facts about a slave (t, b) with master m *)
Lemma slave_facts : forall t b m, b < nr -> nth (t * nr + b) ms None = Some m ->
  m / nr < nb /\ (m - m / nr * nr = b)%nat /\ (m = m / nr * nr + b)%nat /\ nth (m / nr * nr + b) ms None = None /\ m / nr <> t.
Proof.
  intros t b m Hb E. destruct (ms_facts _ _ _ MS _ _ E) as (H1 & H2 & H3 & H4 & H5).
  destruct (dof_div t b Hb) as (D1 & D2). rewrite D1 in H5. rewrite D2 in H3.
  destruct (idx_dof _ A m H2) as (M1 & M2 & M3 & M4). rewrite H3 in M4. rewrite <- M4.
  repeat split; auto. lia.
Qed.
Lemma mst_at : forall t b m J, b < nr -> nth (t * nr + b) ms None = Some m -> mst t b J = (m / nr =? J).
Proof.
  intros t b m J Hb E. unfold mst. rewrite E. destruct (slave_facts t b m Hb E) as (H1 & H2 & H3 & H4 & H5).
  rewrite H3 at 1. destruct (Nat.eqb_spec (m / nr * nr + b) (J * nr + b)), (Nat.eqb_spec (m / nr) J); auto; nia.
Qed.
Lemma mst_none : forall t b J, nth (t * nr + b) ms None = None -> mst t b J = false.
Proof. intros t b J E. unfold mst. rewrite E. auto. Qed.

Lemma ltb_S : forall b k, (b <? S k) = (b <? k) || (b =? k).
Proof. intros. destruct (Nat.ltb_spec b (S k)), (Nat.ltb_spec b k), (Nat.eqb_spec b k); auto; lia. Qed.

Lemma regroup : forall ino a b J (c d : list K), ino < nb ->
  sumn nb (fun t => if mst t b J then dense (D c d) ino a t b else 0) =
  bigsum (row_range A ino) (fun q => if mst (rp A q) b J then nth (p q a b) c 0 else 0) + (if mst ino b J then nth (p ino a b) d 0 else 0).
Proof.
  intros ino a b J c d Hi.
  rewrite (sumn_ext _ _ _ (fun t => bigsum (row_range A ino) (fun q => if t =? rp A q then (if mst t b J then nth (p q a b) c 0 else 0) else 0)
     + (if t =? ino then (if mst t b J then nth (p t a b) d 0 else 0) else 0))).
  2:{ intros t Ht. rewrite (dense_Dn _ _ SQ). destruct (mst t b J).
      - rewrite (bigsum_ext _ _ _ _ (fun q => if t =? rp A q then nth (p q a b) c 0 else 0)) by (intros; rewrite Nat.eqb_sym; auto).
        rewrite (Nat.eqb_sym t ino). destruct (Nat.eqb_spec ino t) as [->|]; ring.
      - rewrite bigsum_zero by (intros; destruct (t =? _); auto). destruct (t =? ino); ring. }
  rewrite sumn_add. rewrite sumn_pick by auto. f_equal.
  unfold sumn. rewrite bigsum_swap. apply bigsum_ext. intros q Hq. fold (@sumn K).
  destruct (wf_vget_rp _ _ WF _ _ Hi Hq) as (_ & Hr). destruct SQ as (E & _).
  exact (sumn_pick _ nb (rp A q) (fun t => if mst t b J then nth (p q a b) c 0 else 0) ltac:(lia)).
Qed.

Lemma col_body_ok : forall ino c d buf, ino < nb -> clear buf -> shape c d ->
  wp (col_body ino (c, d, buf)) (fun st => let '(c', d', buf') := st in clear buf' /\ shape c' d' /\
    forall I a J b, I < nb -> a < nr -> J < nb -> b < nr ->
      dense (D c' d') I a J b = dense (D c d) I a J b +
       (if I =? ino then sumn nb (fun t => if mst t b J then dense (D c d) ino a t b else 0) else 0)).
Proof.
  intros ino c d buf Hi Hcl (Lc & Ld). unfold col_body. apply wp_bind.
  eapply wp_mono; [apply ms_mark_ok; auto|]. intros buf1 (Lb & Hm & Hnm). apply wp_bind.
  apply (wp_forn _ (fun k c1 => length c1 = length (val_crs A) /\
     (forall q a b, In q (row_range A ino) -> a < nr -> b < nr -> nth (rp A q * nr + b) ms None <> None -> nth (p q a b) c1 0 = nth (p q a b) c 0) /\
     forall I a J b, I < nb -> a < nr -> b < nr -> dense (D c1 d) I a J b = dense (D c d) I a J b +
       (if (I =? ino) && (b <? k) && mst ino b J then nth (p ino a b) d 0 else 0))); [lia| | |].
  - split; auto. split; auto. intros I a J b _ _ _. rewrite (proj2 (Nat.ltb_ge _ 0)) by lia. rewrite andb_false_r. cbn [andb]. ring.
  - intros k c1 Hk (L1 & F1 & HD). rewrite dof_get by lia. cbn [bind].
    destruct (nth (ino * nr + k) ms None) as [m|] eqn:Em.
    2:{ apply wp_some. split; auto. split; auto. intros I a J b HI Ha Hb. rewrite HD by auto. rewrite ltb_S.
        destruct (Nat.eqb_spec b k) as [->|]; [rewrite (mst_none _ _ _ Em), !andb_false_r; auto|rewrite orb_false_r; auto]. }
    destruct (slave_facts ino k m ltac:(lia) Em) as (M1 & M2 & M3 & M4 & M5). cbv zeta.
    apply wp_bind, wp_assertb; [apply Nat.eqb_eq; auto|].
    destruct (CL _ _ Em) as (C1 & C2 & C3 & C4 & C5). destruct (dof_div ino k ltac:(lia)) as (D1 & D2). rewrite D1 in C3.
    destruct (Hm _ C3) as (q0 & Hq0 & Er0 & Eb).
    rewrite (ms_find_ok _ _ WF ino buf1 (m / nr) q0); auto. cbn [bind].
    eapply wp_mono.
    { apply (add_vec K nr (fun j => p q0 j k) (fun _ j => vget d (p ino j k)) (fun j => nth (p ino j k) d 0)).
      - intros j Hj. apply (p_crs _ _ WF SQ c1 ino); auto; lia.
      - intros x y Hx Hy E. apply idx3_inj in E; auto; lia.
      - intros s' j Hj Ls Hs'. apply vget_nth. apply (p_dia _ _ WF SQ); auto. lia. }
    intros c2 (Lc2 & G1 & G2). split; [congruence|]. split.
    { intros q a b Hq Ha Hb Hn. rewrite G2; [auto|]. intros j Hj E. apply idx3_inj in E; auto; [|lia].
      destruct E as (-> & -> & ->). rewrite Er0 in Hn. auto. }
    intros I a J b HI Ha Hb.
    rewrite (crs_delta _ _ WF SQ c1 c2 d q0 ino (fun x y => if y =? k then nth (p ino x y) d 0 else 0)); auto.
    + rewrite HD by auto. rewrite Er0, (Nat.eqb_sym ino I), ltb_S.
      destruct (Nat.eqb_spec b k) as [->|].
      * rewrite (mst_at ino k m J) by (auto; lia). rewrite (proj2 (Nat.ltb_ge k k)) by lia. rewrite andb_false_r. cbn [andb orb]. rewrite andb_true_r.
        destruct (I =? ino), (m / nr =? J); cbn [andb]; ring.
      * rewrite orb_false_r. destruct ((I =? ino) && (m / nr =? J)); ring.
    + intros x y Hx Hy. destruct (Nat.eqb_spec y k) as [->|Hy']; [apply G1; auto|].
      rewrite G2; [ring|]. intros j Hj E. apply idx3_inj in E; auto; lia.
    + intros k' Hk'. apply G2. intros j Hj. apply Hk'; auto; lia.
  - intros c1 (L1 & F1 & HD). rewrite !(wf_ci _ _ WF) by lia. cbn [bind]. rewrite Nat.add_1_r. apply wp_bind.
    assert (HM : ci A ino <= ci A (S ino)) by (destruct WF as (_ & HM & _); auto).
    apply (wp_forn _ (fun k st => let '(c2, d2) := st in shape c2 d2 /\
     (forall q a b, In q (row_range A ino) -> a < nr -> b < nr -> nth (rp A q * nr + b) ms None <> None -> nth (p q a b) c2 0 = nth (p q a b) c 0) /\
     forall I a J b, I < nb -> a < nr -> b < nr -> dense (D c2 d2) I a J b = dense (D c1 d) I a J b +
       (if I =? ino then bigsum (seq (ci A ino) (k - ci A ino)) (fun q => if mst (rp A q) b J then nth (p q a b) c 0 else 0) else 0))); [auto| | |].
    + split; [split; auto|]. split; auto. intros I a J b _ _ _. rewrite Nat.sub_diag. cbn [seq]. rewrite bigsum_nil. destruct (I =? ino); ring.
    + intros q (c2, d2) Hq (Hsh & F2 & HD2).
      assert (Hqr : In q (row_range A ino)) by (apply in_seq; lia).
      destruct (wf_vget_rp _ _ WF _ _ Hi Hqr) as (Ev & Hr). rewrite Ev. cbn [bind].
      assert (Hr' : rp A q < nb) by (destruct SQ; lia).
      apply wp_bind, wp_assertb; [apply Nat.ltb_lt; auto|].
      apply (wp_forn _ (fun k st => let '(c3, d3) := st in shape c3 d3 /\
       (forall q a b, In q (row_range A ino) -> a < nr -> b < nr -> nth (rp A q * nr + b) ms None <> None -> nth (p q a b) c3 0 = nth (p q a b) c 0) /\
       forall I a J b, I < nb -> a < nr -> b < nr -> dense (D c3 d3) I a J b = dense (D c2 d2) I a J b +
         (if (I =? ino) && (b <? k) && mst (rp A q) b J then nth (p q a b) c 0 else 0))); [lia| | |].
      * split; auto. split; auto. intros I a J b _ _ _. rewrite (proj2 (Nat.ltb_ge _ 0)) by lia. rewrite andb_false_r. cbn [andb]. ring.
      * intros k (c3, d3) Hk ((L3 & L3') & F3 & HD3). rewrite dof_get by lia. cbn [bind].
        destruct (nth (rp A q * nr + k) ms None) as [m|] eqn:Em.
        2:{ apply wp_some. split; [split; auto|]. split; auto. intros I a J b HI Ha Hb. rewrite HD3 by auto. rewrite ltb_S.
            destruct (Nat.eqb_spec b k) as [->|]; [rewrite (mst_none _ _ _ Em), !andb_false_r; auto|rewrite orb_false_r; auto]. }
        destruct (slave_facts (rp A q) k m ltac:(lia) Em) as (M1 & M2 & M3 & M4 & M5). cbv zeta.
        apply wp_bind, wp_assertb; [apply Nat.ltb_lt; auto|]. apply wp_bind, wp_assertb; [apply Nat.eqb_eq; auto|].
        assert (Hsl : nth (rp A q * nr + k) ms None <> None) by congruence.
        assert (Hfin : forall (X : nat -> nat -> nat -> nat -> K),
           (forall I a J b, I < nb -> a < nr -> b < nr -> X I a J b = dense (D c3 d3) I a J b +
             (if (ino =? I) && (m / nr =? J) then (if b =? k then nth (p q a b) c3 0 else 0) else 0)) ->
           forall I a J b, I < nb -> a < nr -> b < nr -> X I a J b = dense (D c2 d2) I a J b +
            (if (I =? ino) && (b <? S k) && mst (rp A q) b J then nth (p q a b) c 0 else 0)).
        { intros X HX I a J b HI Ha Hb. rewrite HX by auto. rewrite HD3 by auto. rewrite (Nat.eqb_sym ino I), ltb_S.
          destruct (Nat.eqb_spec b k) as [->|].
          - rewrite (mst_at (rp A q) k m J) by (auto; lia). rewrite F3 by (auto; lia). rewrite (proj2 (Nat.ltb_ge k k)) by lia. rewrite andb_false_r. cbn [andb orb]. rewrite andb_true_r.
            destruct (I =? ino), (m / nr =? J); cbn [andb]; ring.
          - rewrite orb_false_r. destruct ((I =? ino) && (m / nr =? J)); ring. }
        destruct (Nat.eqb_spec ino (m / nr)) as [Ei|Ni].
        -- rewrite <- Ei in *. apply wp_bind. eapply wp_mono.
           { apply (add_vec K nr (fun j => p ino j k) (fun _ j => vget c3 (p q j k)) (fun j => nth (p q j k) c3 0)).
             - intros j Hj. apply (p_dia _ _ WF SQ); auto; lia.
             - intros x y Hx Hy E. apply idx3_inj in E; auto; lia.
             - intros s' j Hj Ls Hs'. apply vget_nth. apply (p_crs _ _ WF SQ c3 ino); auto. lia. }
           intros d4 (Ld4 & G1 & G2). apply wp_some. split; [split; congruence|]. split; [auto|].
           apply Hfin. intros I a J b HI Ha Hb.
           apply (dia_delta _ _ SQ c3 d3 d4 ino (fun x y => if y =? k then nth (p q x y) c3 0 else 0)); auto.
           ++ intros x y Hx Hy. destruct (Nat.eqb_spec y k) as [->|Hy']; [apply G1; auto|].
              rewrite G2; [ring|]. intros j Hj E. apply idx3_inj in E; auto; lia.
           ++ intros k' Hk'. apply G2. intros j Hj. apply Hk'; auto; lia.
        -- destruct (CL _ _ Em) as (C1 & C2 & C3 & C4 & C5). destruct (dof_div (rp A q) k ltac:(lia)) as (D1 & D2). rewrite D1 in C5.
           destruct (C5 ino Hi) as [E|Hp]; [exists q; auto|congruence|].
           destruct (Hm _ Hp) as (q0 & Hq0 & Er0 & Eb).
           rewrite (ms_find_ok _ _ WF ino buf1 (m / nr) q0); auto. cbn [bind].
           assert (Hqq : q <> q0) by (intros ->; congruence).
           apply wp_bind. eapply wp_mono.
           { apply (add_vec K nr (fun j => p q0 j k) (fun c j => vget c (p q j k)) (fun j => nth (p q j k) c3 0)).
             - intros j Hj. apply (p_crs _ _ WF SQ c3 ino); auto; lia.
             - intros x y Hx Hy E. apply idx3_inj in E; auto; lia.
             - intros s' j Hj Ls Hs'. rewrite (vget_nth _ 0) by (apply (p_crs _ _ WF SQ s' ino); auto; try lia; congruence). f_equal. apply Hs'.
               intros x Hx E. apply idx3_inj in E; auto; lia. }
           intros c4 (Lc4 & G1 & G2). apply wp_some. split; [split; congruence|]. split.
           { intros q' a b Hq' Ha Hb Hn. rewrite G2; [auto|]. intros j Hj E. apply idx3_inj in E; auto; [|lia].
             destruct E as (-> & -> & ->). rewrite Er0 in Hn. auto. }
           apply Hfin. intros I a J b HI Ha Hb. rewrite <- Er0.
           apply (crs_delta _ _ WF SQ c3 c4 d3 q0 ino (fun x y => if y =? k then nth (p q x y) c3 0 else 0)); auto.
           ++ intros x y Hx Hy. destruct (Nat.eqb_spec y k) as [->|Hy']; [apply G1; auto|].
              rewrite G2; [ring|]. intros j Hj E. apply idx3_inj in E; auto; lia.
           ++ intros k' Hk'. apply G2. intros j Hj. apply Hk'; auto; lia.
      * intros (c3, d3) (Hsh3 & F3 & HD3). split; auto. split; auto. intros I a J b HI Ha Hb.
        rewrite HD3, HD2 by auto. rewrite (proj2 (Nat.ltb_lt b nr)) by auto. rewrite andb_true_r.
        replace (S q - ci A ino)%nat with (S (q - ci A ino)) by lia. rewrite seq_S, bigsum_app, bigsum_cons, bigsum_nil.
        replace (ci A ino + (q - ci A ino))%nat with q by lia.
        destruct (I =? ino), (mst (rp A q) b J); cbn [andb]; ring.
    + intros (c2, d2) (Hsh & F2 & HD2).
      apply wp_bind. eapply wp_mono; [apply ms_unmark_ok; auto; apply in_pattern_dec|].
      intros buf2 Hb2. apply wp_some. split; auto. split; auto. intros I a J b HI Ha HJ Hb.
      rewrite HD2, HD by auto. rewrite (regroup ino a b J c d Hi). rewrite (proj2 (Nat.ltb_lt b nr)) by auto. rewrite andb_true_r.
      fold (row_range A ino). destruct (Nat.eqb_spec I ino) as [->|]; cbn [andb]; [destruct (mst ino b J)|]; ring.
Qed.

Lemma ms_cols_ok : forall c d, shape c d -> wp (ms_cols A ms c d) (fun st => let '(c', d') := st in shape c' d' /\
  forall i j, i < nb * nr -> j < nb * nr -> en (D c' d') i j = en (D c d) i j +
     sumn (nb * nr) (fun l => if match nth l ms None with Some m => m =? j | None => false end then en (D c d) i l else 0)).
Proof.
  intros c d Hsh. unfold ms_cols. cbv zeta. apply wp_bind.
  apply (wp_forn _ (fun h st => let '(c', d', buf) := st in clear buf /\ shape c' d' /\
    forall I a J b, I < nb -> a < nr -> J < nb -> b < nr ->
      dense (D c' d') I a J b = dense (D c d) I a J b +
       (if I <? h then sumn nb (fun t => if mst t b J then dense (D c d) I a t b else 0) else 0))); [lia| | |].
  - split; [split; [apply repeat_length|intros J; destruct (lt_dec J nb); [apply nth_repeat'; auto|apply nth_overflow; rewrite repeat_length; lia]]|].
    split; auto. intros I a J b _ _ _ _. cbn [Nat.ltb]. rewrite (proj2 (Nat.ltb_ge I 0)) by lia. ring.
  - intros h ((c', d'), buf) Hh (Hcl & Hsh' & HD).
    eapply wp_mono; [exact (col_body_ok h c' d' buf ltac:(lia) Hcl Hsh')|].
    intros ((c2, d2), buf2) (Hcl2 & Hsh2 & HD2). split; auto. split; auto. intros I a J b HI Ha HJ Hb.
    rewrite HD2 by auto. rewrite HD by auto. rewrite ltb_S. destruct (Nat.eqb_spec I h) as [->|Hn].
    + rewrite (proj2 (Nat.ltb_ge h h)) by lia. cbn [orb].
      rewrite (sumn_ext _ nb _ (fun t => if mst t b J then dense (D c d) h a t b else 0)); [ring|].
      intros t Ht. destruct (mst t b J); auto. rewrite HD by auto. rewrite (proj2 (Nat.ltb_ge h h)) by lia. ring.
    + rewrite orb_false_r. ring.
  - intros ((c', d'), buf) (Hcl & Hsh' & HD). apply wp_some. split; auto. intros i j Hi Hj.
    destruct (idx_dof _ A i Hi) as (I1 & _ & I3 & I4). destruct (idx_dof _ A j Hj) as (J1 & _ & J3 & J4).
    rewrite HD by auto. rewrite (proj2 (Nat.ltb_lt _ nb)) by auto. f_equal.
    rewrite sumn_blocks. apply sumn_ext. intros t Ht.
    rewrite (sumn_ext _ nr _ (fun b => if b =? j mod nr then (if mst t b (j / nr) then dense (D c d) (i / nr) (i mod nr) t b else 0) else 0)).
    + rewrite sumn_pick by auto. reflexivity.
    + intros b Hb. destruct (dof_div t b Hb) as (-> & ->). destruct (nth (t * nr + b) ms None) as [m|] eqn:Em.
      * destruct (slave_facts t b m Hb Em) as (M1 & M2 & M3 & M4 & M5). rewrite (mst_at t b m _ Hb Em).
        destruct (Nat.eqb_spec m j) as [E|E].
        -- rewrite E in *. assert (Eb : b = j mod nr) by lia. rewrite Eb, !Nat.eqb_refl. auto.
        -- destruct (Nat.eqb_spec b (j mod nr)); auto. destruct (Nat.eqb_spec (m / nr) (j / nr)); auto. exfalso. apply E. congruence.
      * rewrite (mst_none _ _ _ Em). destruct (b =? j mod nr); auto.
Qed.
End P.
