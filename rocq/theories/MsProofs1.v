(** Adding rows of slaves to rows of masters. *)
From Coq Require Import List Arith Bool ZArith Lia Ring.
Import ListNotations.
From Verif Require Import Imp Alg SpModel SpSpec SpProofs1 SpProofs4 SpProofs5 MsModel MsSpec.

Section P.
Variable K : cring.
Add Ring Kr : (rlaws K).
Local Open Scope K_scope.

(** v[t j] += src j for all j < n, at distinct positions *)
Lemma add_vec : forall n (t : nat -> nat) (get : list K -> nat -> option K) (src : nat -> K) (c : list K),
  (forall j, j < n -> t j < length c) ->
  (forall i j, i < n -> j < n -> t i = t j -> i = j) ->
  (forall s j, j < n -> length s = length c -> (forall k, (forall i, i < n -> k <> t i) -> nth k s 0 = nth k c 0) -> get s j = Some (src j)) ->
  wp (forn 0 n (fun j s => v <- get s j ;; vmod s (t j) (fun x => x + v)) c)
   (fun c' => length c' = length c /\ (forall j, j < n -> nth (t j) c' 0 = nth (t j) c 0 + src j) /\
      (forall k, (forall i, i < n -> k <> t i) -> nth k c' 0 = nth k c 0)).
Proof.
  intros n t get src c Ht Hinj Hget.
  apply (wp_forn _ (fun h s => length s = length c /\ (forall j, j < h -> nth (t j) s 0 = nth (t j) c 0 + src j) /\
      (forall k, (forall i, i < h -> k <> t i) -> nth k s 0 = nth k c 0))); [lia| | |].
  - split; auto. split; [intros; lia|auto].
  - intros j s Hj (L & H1 & H2). rewrite Hget; [|lia|auto|].
    + cbn [bind]. eapply wp_mono; [apply vmod_own; rewrite L; apply Ht; lia|].
      intros s' (L' & H'). split; [congruence|]. split.
      * intros i Hi. destruct (Nat.eq_dec i j) as [->|Hn].
        -- rewrite (proj1 (H' _)) by auto. rewrite H2; auto. intros i Hi' E. apply Hinj in E; lia.
        -- rewrite (proj2 (H' _)); [apply H1; lia|]. intros E. apply Hinj in E; lia.
      * intros k Hk. rewrite (proj2 (H' _)); [apply H2; intros; apply Hk; lia|]. apply Hk. lia.
    + intros k Hk. apply H2. intros i Hi. apply Hk. lia.
  - intros s (L & H1 & H2). auto.
Qed.

Variable A : matsp K.
Hypothesis WF : wf A.
Hypothesis SQ : square A.
Notation nr := (nrowdim A).
Notation nb := (nrowblk A).
Notation p q a b := (q * (nr * nr) + a * nr + b)%nat.
Notation D := (D K A).

Lemma dense_Dn : forall c d I a J b, dense (D c d) I a J b =
    bigsum (row_range A I) (fun q => if rp A q =? J then nth (p q a b) c 0 else 0)
    + (if I =? J then nth (p I a b) d 0 else 0).
Proof. intros. rewrite dense_D. destruct SQ as (_ & E). rewrite <- E. reflexivity. Qed.

Lemma p_crs : forall (c : list K) I q a b, length c = length (val_crs A) -> I < nb -> In q (row_range A I) -> a < nr -> b < nr -> p q a b < length c.
Proof. intros c I q a b L HI Hq Ha Hb. rewrite L. pose proof (pos_crs _ _ WF I q a b) as H. destruct SQ as (_ & E). rewrite <- E in H. apply H; auto. Qed.
Lemma p_dia : forall (d : list K) I a b, length d = length (val_dia A) -> I < nb -> a < nr -> b < nr -> p I a b < length d.
Proof. intros d I a b L HI Ha Hb. rewrite L. pose proof (pos_dia _ _ WF I a b) as H. destruct SQ as (_ & E). rewrite <- E in H. apply H; auto. Qed.

(** effect on the dense matrix of an update of one stored block, of one diagonal block *)
Lemma crs_delta : forall (c c' d : list K) q I0 (delta : nat -> nat -> K), I0 < nb -> In q (row_range A I0) ->
  (forall a b, a < nr -> b < nr -> nth (p q a b) c' 0 = nth (p q a b) c 0 + delta a b) ->
  (forall k, (forall a b, a < nr -> b < nr -> k <> p q a b) -> nth k c' 0 = nth k c 0) ->
  forall I a J b, I < nb -> a < nr -> b < nr -> dense (D c' d) I a J b =
      dense (D c d) I a J b + (if (I0 =? I) && (rp A q =? J) then delta a b else 0).
Proof.
  intros c c' d q I0 delta HI0 Hq H1 H2 I a J b HI Ha Hb. rewrite !dense_Dn.
  assert (X : forall q', In q' (row_range A I) -> nth (p q' a b) c' 0 = nth (p q' a b) c 0 + (if q' =? q then delta a b else 0)).
  { intros q' Hq'. destruct (Nat.eqb_spec q' q) as [->|Hn]; [apply H1; auto|].
    rewrite H2; [ring|]. intros a' b' Ha' Hb' E. apply idx3_inj in E; tauto. }
  rewrite (bigsum_ext _ _ _ _ (fun q' => (if rp A q' =? J then nth (p q' a b) c 0 else 0) +
     (if q' =? q then (if rp A q =? J then delta a b else 0) else 0))).
  2:{ intros q' Hq'. rewrite X by auto. destruct (Nat.eqb_spec q' q) as [->|]; destruct (rp A _ =? J); ring. }
  rewrite bigsum_add. destruct (Nat.eqb_spec I0 I) as [<-|Hn].
  - unfold row_range at 2. rewrite bigsum_seq_pick by (apply in_seq in Hq; lia). cbn [andb]. ring.
  - rewrite (bigsum_zero _ _ _ (fun q' => if q' =? q then _ else 0)); [cbn [andb]; ring|].
    intros q' Hq'. destruct (Nat.eqb_spec q' q) as [->|]; auto. exfalso. apply Hn. apply (row_disj _ _ WF I0 I q); auto.
Qed.
Lemma dia_delta : forall (c d d' : list K) I0 (delta : nat -> nat -> K), I0 < nb ->
  (forall a b, a < nr -> b < nr -> nth (p I0 a b) d' 0 = nth (p I0 a b) d 0 + delta a b) ->
  (forall k, (forall a b, a < nr -> b < nr -> k <> p I0 a b) -> nth k d' 0 = nth k d 0) ->
  forall I a J b, I < nb -> a < nr -> b < nr -> dense (D c d') I a J b =
      dense (D c d) I a J b + (if (I0 =? I) && (I0 =? J) then delta a b else 0).
Proof.
  intros c d d' I0 delta HI0 H1 H2 I a J b HI Ha Hb. rewrite !dense_Dn.
  destruct (Nat.eqb_spec I0 I) as [->|Hn]; cbn [andb].
  - destruct (I =? J); [|ring]. rewrite H1 by auto. ring.
  - rewrite (H2 (p I a b)); [ring|]. intros a' b' Ha' Hb' E. apply idx3_inj in E; try tauto. destruct E as (E & _). congruence.
Qed.

(** the buffer *)
Definition clear (buf : list (option nat)) := length buf = nb /\ forall J, nth J buf None = None.
Lemma ms_mark_ok : forall I buf, I < nb -> clear buf ->
  wp (ms_mark A I buf) (fun buf' => length buf' = nb /\
    (forall J, in_pattern A I J -> exists c, In c (row_range A I) /\ rp A c = J /\ nth J buf' None = Some c) /\
    (forall J, ~ in_pattern A I J -> nth J buf' None = None)).
Proof.
  intros I buf HI (L & Hc). unfold ms_mark. rewrite !(wf_ci _ _ WF) by lia. cbn [bind].
  rewrite (forn_ext _ _ _ _ (fun jpsup buf =>
          asrt false (jpsup <? length (row_ptr A))%nat ;;;
          jblk1 <- vget (row_ptr A) jpsup ;; vset buf jblk1 (Some jpsup))).
  2:{ intros i s Hi. assert (Hq : In i (row_range A I)) by (apply in_seq; rewrite Nat.add_1_r in Hi; lia).
      destruct (wf_vget_rp _ _ WF _ _ HI Hq) as (Ev & Hr). rewrite Ev. cbn [bind asrt].
      destruct SQ as (E & _). rewrite (proj2 (Nat.ltb_lt _ _)) by lia. reflexivity. }
  eapply wp_mono; [apply (mark_ok _ _ WF false); [auto|destruct SQ; congruence]|].
  intros buf' (L' & H). split; [congruence|]. split; intros J HJ; destruct (H J) as [(c & H1 & H2 & H3)|(H1 & H2)].
  - exists c. auto.
  - tauto.
  - exfalso. apply HJ. exists c. auto.
  - rewrite H2. apply Hc.
Qed.
Lemma ms_unmark_ok : forall I buf, I < nb -> length buf = nb -> (forall J, ~ in_pattern A I J -> nth J buf None = None) ->
  (forall J, in_pattern A I J \/ ~ in_pattern A I J) ->
  wp (ms_unmark A I buf) clear.
Proof.
  intros I buf HI L Hc Hdec. unfold ms_unmark. rewrite !(wf_ci _ _ WF) by lia. cbn [bind].
  rewrite (forn_ext _ _ _ _ (fun jpsup buf =>
          asrt false (jpsup <? length (row_ptr A))%nat ;;;
          jblk1 <- vget (row_ptr A) jpsup ;; vset buf jblk1 None)).
  2:{ intros i s Hi. assert (Hq : In i (row_range A I)) by (apply in_seq; rewrite Nat.add_1_r in Hi; lia).
      destruct (wf_vget_rp _ _ WF _ _ HI Hq) as (Ev & Hr). rewrite Ev. cbn [bind asrt].
      destruct SQ as (E & _). rewrite (proj2 (Nat.ltb_lt _ _)) by lia. reflexivity. }
  eapply wp_mono; [apply (unmark_ok _ _ WF false); [auto|destruct SQ; congruence]|].
  intros buf' (L' & H). split; [congruence|]. intros J. destruct (H J) as (H1 & H2). destruct (Hdec J); auto. rewrite H2; auto.
Qed.
Lemma in_pattern_dec : forall I J, in_pattern A I J \/ ~ in_pattern A I J.
Proof.
  intros I J. destruct (existsb (fun c => rp A c =? J) (row_range A I)) eqn:E.
  - left. apply existsb_exists in E. destruct E as (c & H1 & H2). apply Nat.eqb_eq in H2. exists c. auto.
  - right. intros (c & H1 & H2). assert (X : existsb (fun c => rp A c =? J) (row_range A I) = true).
    { apply existsb_exists. exists c. split; auto. apply Nat.eqb_eq. auto. } congruence.
Qed.
Lemma ms_find_ok : forall I buf J c, I < nb -> In c (row_range A I) -> length buf = nb -> J < nb -> nth J buf None = Some c ->
  ms_find A buf J = Some c.
Proof.
  intros I buf J c HI Hc L HJ E. unfold ms_find. rewrite (vget_nth _ None) by lia. rewrite E. cbn [bind].
  pose proof (wf_range _ _ WF _ _ HI Hc). rewrite (proj2 (Nat.ltb_lt _ _)) by lia. reflexivity.
Qed.

(** adding a vector to row a0 (column b0) of block q *)
Definition shape (c d : list K) := length c = length (val_crs A) /\ length d = length (val_dia A).

Lemma idx_dof : forall k, k < nb * nr -> k / nr < nb /\ (k - k / nr * nr = k mod nr)%nat /\ k mod nr < nr /\ (k = k / nr * nr + k mod nr)%nat.
Proof.
  intros k Hk. assert (nr <> 0%nat) by lia. pose proof (Nat.div_mod k nr H). pose proof (Nat.mod_upper_bound k nr H).
  repeat split; auto; try lia. apply Nat.div_lt_upper_bound; lia.
Qed.

(** one slave row: component a of node s is added to component a of node i *)
Definition row_body (s i a : nat) (buf : list (option nat)) (c d : list K) : option (list K * list K * list (option nat)) :=
  buf <- ms_mark A i buf ;;
  lo <- vget (col_ind A) s ;; hi <- vget (col_ind A) (s + 1) ;;
  '(c, d) <- forn lo hi (fun icrs1 st =>
    let '(c, d) := st in
    jno1 <- vget (row_ptr A) icrs1 ;;
    assertb (jno1 <? nb)%nat ;;;
    assertb (negb (jno1 =? s))%nat ;;;
    if negb (jno1 =? i)%nat then
      icrs0 <- ms_find A buf jno1 ;;
      c <- forn 0 nr (fun jdim c => v <- vget c (p icrs1 a jdim) ;; vmod c (p icrs0 a jdim) (fun t => t + v)) c ;;
      Some (c, d)
    else
      d <- forn 0 nr (fun jdim d => v <- vget c (p icrs1 a jdim) ;; vmod d (p i a jdim) (fun t => t + v)) d ;;
      Some (c, d)) (c, d) ;;
  icrs0 <- ms_find A buf s ;;
  c <- forn 0 nr (fun jdim c => v <- vget d (p s a jdim) ;; vmod c (p icrs0 a jdim) (fun t => t + v)) c ;;
  buf <- ms_unmark A i buf ;;
  Some (c, d, buf).

Lemma row_body_ok : forall s i a buf c d, s < nb -> i < nb -> a < nr -> s <> i -> clear buf -> shape c d ->
  ~ in_pattern A s s -> in_pattern A i s -> (forall j, in_pattern A s j -> j = i \/ in_pattern A i j) ->
  wp (row_body s i a buf c d) (fun st => let '(c', d', buf') := st in clear buf' /\ shape c' d' /\
    forall I a' J b, I < nb -> a' < nr -> b < nr ->
      dense (D c' d') I a' J b = dense (D c d) I a' J b + (if (I =? i) && (a' =? a) then dense (D c d) s a J b else 0)).
Proof.
  intros s i a buf c d Hs Hi Ha Hsi Hcl (Lc & Ld) Hnd Hpis Hpc. unfold row_body. apply wp_bind.
  eapply wp_mono; [apply ms_mark_ok; auto|]. intros buf1 (Lb & Hm & Hnm).
  rewrite !(wf_ci _ _ WF) by lia. cbn [bind]. rewrite Nat.add_1_r. apply wp_bind.
  assert (HM : ci A s <= ci A (S s)) by (destruct WF as (_ & HM & _); auto).
  apply (wp_forn _ (fun k st => let '(c1, d1) := st in shape c1 d1 /\
     (forall q b, In q (row_range A s) -> b < nr -> nth (p q a b) c1 0 = nth (p q a b) c 0) /\
     (forall b, b < nr -> nth (p s a b) d1 0 = nth (p s a b) d 0) /\
     forall I a' J b, I < nb -> a' < nr -> b < nr -> dense (D c1 d1) I a' J b = dense (D c d) I a' J b +
       (if (I =? i) && (a' =? a) then bigsum (seq (ci A s) (k - ci A s)) (fun q => if rp A q =? J then nth (p q a b) c 0 else 0) else 0))); [auto| | |].
  - split; [split; auto|]. split; auto. split; auto. intros I a' J b _ _ _. rewrite Nat.sub_diag. cbn [seq]. rewrite bigsum_nil.
    destruct ((I =? i) && (a' =? a)); ring.
  - intros q (c1, d1) Hq ((L1 & L2) & F1 & F2 & HD).
    assert (Hqr : In q (row_range A s)) by (apply in_seq; lia).
    destruct (wf_vget_rp _ _ WF _ _ Hs Hqr) as (Ev & Hr). rewrite Ev. cbn [bind].
    apply wp_bind, wp_assertb; [apply Nat.ltb_lt; destruct SQ; lia|].
    assert (Hrs : rp A q <> s) by (intros E; apply Hnd; exists q; auto).
    apply wp_bind, wp_assertb; [apply negb_true_iff, Nat.eqb_neq; auto|].
    assert (Hsum : forall J b, bigsum (seq (ci A s) (S q - ci A s)) (fun q => if rp A q =? J then nth (p q a b) c 0 else 0) =
        bigsum (seq (ci A s) (q - ci A s)) (fun q => if rp A q =? J then nth (p q a b) c 0 else 0) + (if rp A q =? J then nth (p q a b) c 0 else 0)).
    { intros. replace (S q - ci A s)%nat with (S (q - ci A s)) by lia. rewrite seq_S, bigsum_app, bigsum_cons, bigsum_nil.
      replace (ci A s + (q - ci A s))%nat with q by lia. ring. }
    destruct (Nat.eqb_spec (rp A q) i) as [Ei|Ni]; cbn [negb].
    + (* to the diagonal block *)
      apply wp_bind. eapply wp_mono.
      { apply (add_vec nr (fun j => p i a j) (fun _ j => vget c1 (p q a j)) (fun j => nth (p q a j) c1 0)).
        - intros j Hj. apply p_dia; auto.
        - intros x y Hx Hy E. lia.
        - intros s' j Hj Ls Hs'. apply vget_nth. apply (p_crs c1 s); auto. }
      intros d2 (Ld2 & G1 & G2). apply wp_some. split; [split; [auto|congruence]|]. split; [auto|]. split.
      { intros b Hb. rewrite G2; [auto|]. intros j Hj E. apply idx3_inj in E; auto. lia. }
      intros I a' J b HI Ha' Hb.
      rewrite (dia_delta c1 d1 d2 i (fun x y => if x =? a then nth (p q a y) c1 0 else 0)); auto.
      * rewrite HD by auto. rewrite (Hsum J b). rewrite F1 by auto. rewrite Ei, (Nat.eqb_sym i I).
        destruct (I =? i), (a' =? a), (i =? J); cbn [andb]; ring.
      * intros x y Hx Hy. destruct (Nat.eqb_spec x a) as [->|Hx']; [apply G1; auto|].
        rewrite G2; [ring|]. intros j Hj E. apply idx3_inj in E; auto. lia.
    + (* to a stored block *)
      destruct (Hm (rp A q)) as (q0 & Hq0 & Er0 & Eb). { destruct (Hpc (rp A q)); [exists q; auto|tauto|auto]. }
      rewrite (ms_find_ok i buf1 (rp A q) q0); auto; [|destruct SQ; lia]. cbn [bind].
      assert (Hqq : q <> q0) by (intros ->; apply Hsi; apply (row_disj _ _ WF s i q0); auto).
      apply wp_bind. eapply wp_mono.
      { apply (add_vec nr (fun j => p q0 a j) (fun c j => vget c (p q a j)) (fun j => nth (p q a j) c1 0)).
        - intros j Hj. apply (p_crs c1 i); auto.
        - intros x y Hx Hy E. lia.
        - intros s' j Hj Ls Hs'. rewrite (vget_nth _ 0) by (apply (p_crs s' s); auto; congruence). f_equal. apply Hs'.
          intros x Hx E. apply idx3_inj in E; auto. lia. }
      intros c2 (Lc2 & G1 & G2). apply wp_some. split; [split; [congruence|auto]|]. split.
      { intros q' b Hq' Hb. rewrite G2; [auto|]. intros j Hj E. apply idx3_inj in E; auto. destruct E as (-> & _).
        apply Hsi. apply (row_disj _ _ WF s i q0); auto. }
      split; [auto|]. intros I a' J b HI Ha' Hb.
      rewrite (crs_delta c1 c2 d1 q0 i (fun x y => if x =? a then nth (p q a y) c1 0 else 0)); auto.
      * rewrite HD by auto. rewrite (Hsum J b). rewrite F1 by auto. rewrite Er0, (Nat.eqb_sym i I).
        destruct (I =? i), (a' =? a), (rp A q =? J); cbn [andb]; ring.
      * intros x y Hx Hy. destruct (Nat.eqb_spec x a) as [->|Hx']; [apply G1; auto|].
        rewrite G2; [ring|]. intros j Hj E. apply idx3_inj in E; auto. lia.
  - intros (c1, d1) ((L1 & L2) & F1 & F2 & HD).
    destruct (Hm s Hpis) as (q0 & Hq0 & Er0 & Eb).
    rewrite (ms_find_ok i buf1 s q0); auto. cbn [bind]. apply wp_bind. eapply wp_mono.
    { apply (add_vec nr (fun j => p q0 a j) (fun _ j => vget d1 (p s a j)) (fun j => nth (p s a j) d1 0)).
      - intros j Hj. apply (p_crs c1 i); auto.
      - intros x y Hx Hy E. lia.
      - intros s' j Hj Ls Hs'. apply vget_nth. apply p_dia; auto. }
    intros c2 (Lc2 & G1 & G2). apply wp_bind. eapply wp_mono; [apply ms_unmark_ok; auto; apply in_pattern_dec|].
    intros buf2 Hb2. apply wp_some. split; auto. split; [split; congruence|]. intros I a' J b HI Ha' Hb.
    rewrite (crs_delta c1 c2 d1 q0 i (fun x y => if x =? a then nth (p s a y) d1 0 else 0)); auto.
    + rewrite HD by auto. rewrite F2 by auto. rewrite Er0, (Nat.eqb_sym i I). rewrite (dense_Dn c d s a). fold (row_range A s).
      destruct (I =? i), (a' =? a), (s =? J); cbn [andb]; ring.
    + intros x y Hx Hy. destruct (Nat.eqb_spec x a) as [->|Hx']; [apply G1; auto|].
      rewrite G2; [ring|]. intros j Hj E. apply idx3_inj in E; auto. lia.
Qed.

Variable ms : list (option nat).
Hypothesis MS : ms_ok nb nr ms.
Hypothesis CL : ms_closed A ms.

Lemma ms_facts : forall k m, nth k ms None = Some m -> k < nb * nr /\ m < nb * nr /\ m mod nr = k mod nr /\ nth m ms None = None /\ (m / nr <> k / nr).
Proof.
  intros k m E. destruct MS as (L & H). destruct (H k m E) as (H1 & H2 & H3).
  assert (Hk : k < nb * nr). { destruct (lt_dec k (length ms)); [lia|]. rewrite nth_overflow in E by lia. discriminate. }
  repeat split; auto. intros E2. assert (k = m). { assert (nr <> 0%nat) by lia. rewrite (Nat.div_mod k nr), (Nat.div_mod m nr) by auto. congruence. }
  subst. congruence.
Qed.

Notation en M i j := (dense M (i / nr) (i mod nr) (j / nr) (j mod nr)).

Lemma ms_rows_ok : wp (ms_rows A ms) (fun st => let '(c, d) := st in shape c d /\
  forall i j, i < nb * nr -> j < nb * nr -> en (D c d) i j = en A i j + sumn (nb * nr) (fun k => if match nth k ms None with Some m => m =? i | None => false end then en A k j else 0)).
Proof.
  unfold ms_rows. cbv zeta. apply wp_bind.
  apply (wp_forn _ (fun h st => let '(c, d, buf) := st in shape c d /\ clear buf /\
     forall i j, i < nb * nr -> j < nb * nr -> en (D c d) i j = en A i j + sumn h (fun k => if match nth k ms None with Some m => m =? i | None => false end then en A k j else 0))); [lia| | |].
  - split; [split; auto|]. split; [split; [apply repeat_length|intros J; destruct (lt_dec J nb); [apply nth_repeat'; auto|apply nth_overflow; rewrite repeat_length; lia]]|].
    intros i j Hi Hj. rewrite sumn_0. replace (D (val_crs A) (val_dia A)) with A by (destruct A; reflexivity). ring.
  - intros k ((c, d), buf) Hk (Hsh & Hcl & HD). rewrite (vget_nth _ None) by (destruct MS; lia). cbn [bind].
    destruct (nth k ms None) as [m|] eqn:Em.
    2:{ apply wp_some. split; auto. split; auto. intros i j Hi Hj. rewrite sumn_S, Em. rewrite HD by auto. ring. }
    destruct (ms_facts k m Em) as (_ & Hm & Hmod & Hmm & Hne).
    destruct (idx_dof k) as (K1 & K2 & K3 & K4); [lia|]. destruct (idx_dof m) as (M1 & M2 & M3 & M4); [lia|].
    cbv zeta. rewrite M2, K2.
    apply wp_bind, wp_assertb; [apply Nat.ltb_lt; auto|]. apply wp_bind, wp_assertb; [apply Nat.ltb_lt; auto|].
    apply wp_bind, wp_assertb; [apply andb_true_iff; split; apply Nat.ltb_lt; auto|].
    apply wp_bind, wp_assertb; [apply Nat.eqb_eq; auto|]. rewrite Hmod.
    destruct (CL k m Em) as (C1 & C2 & C3 & C4 & C5).
    pose proof (row_body_ok (k / nr) (m / nr) (k mod nr) buf c d K1 M1 K3 ltac:(congruence) Hcl Hsh C1 C2 C4) as HB.
    unfold row_body in HB. eapply wp_mono; [exact HB|].
    intros ((c', d'), buf') (Hcl' & Hsh' & HD'). split; auto. split; auto. intros i j Hi Hj.
    destruct (idx_dof i Hi) as (I1 & _ & I3 & I4). destruct (idx_dof j Hj) as (J1 & _ & J3 & J4).
    rewrite HD' by auto. rewrite sumn_S, Em. rewrite HD by auto.
    replace ((i / nr =? m / nr) && (i mod nr =? k mod nr)) with (m =? i).
    2:{ rewrite <- Hmod, <- (idx_eqb nr) by auto. rewrite <- I4, <- M4. apply Nat.eqb_sym. }
    destruct (Nat.eqb_spec m i) as [->|]; [|ring].
    rewrite (HD k j) by lia. rewrite (sumn_zero _ _ (fun k0 => if match nth k0 ms None with Some m => m =? k | None => false end then en A k0 j else 0)); [ring|].
    intros k0 Hk0. destruct (nth k0 ms None) as [m0|] eqn:E0; auto. destruct (Nat.eqb_spec m0 k) as [->|]; auto.
    apply ms_facts in E0. destruct E0 as (_ & _ & _ & E0 & _). congruence.
  - intros ((c, d), buf) (Hsh & Hcl & HD). apply wp_some. auto.
Qed.
End P.
