(** Merging element matrices. *)
From Coq Require Import List Arith Bool ZArith Lia Ring.
Import ListNotations.
From Verif Require Import Imp Alg SpModel SpSpec SpProofs1 SpProofs4 DtriProofs5.

Section P.
Variable K : cring.
Add Ring Kr : (rlaws K).
Local Open Scope K_scope.

Lemma add_block_ok : forall bs (emat : list K) e (out : list K) o, e + bs <= length emat -> o + bs <= length out ->
  wp (add_block K bs emat e out o) (fun s' => length s' = length out /\
     (forall i, i < bs -> nth (o + i) s' 0 = nth (o + i) out 0 + nth (e + i) emat 0) /\
     (forall k, (forall i, i < bs -> k <> o + i)%nat -> nth k s' 0 = nth k out 0)).
Proof.
  intros bs emat e out o He Ho. unfold add_block.
  eapply (wp_own _ 0 (fun i k => k = o + i)%nat (fun k x n => forall i, k = (o + i)%nat -> n = x + nth (e + i) emat 0)).
  - intros; lia.
  - lia.
  - intros i s Hi HL. rewrite (vget_nth _ 0) by lia. cbn [bind]. unfold pluseq.
    eapply wp_mono; [apply vmod_own; lia|]. intros s' (L & H). split; auto. intros k. split; [|apply H].
    intros -> i' E. assert (i' = i) by lia. subst. apply H. auto.
  - intros s' L H1 H2. split; auto. split.
    + intros i Hi. apply (H1 _ i); auto; lia.
    + intros k Hk. apply H2. intros i Hi. apply Hk. lia.
Qed.

Variable A : matsp K.
Hypothesis WF : wf A.
Notation nr := (nrowdim A).
Notation nc := (ncoldim A).
Notation pos c a b := (c * (nr * nc) + a * nc + b)%nat.
Definition D (c d : list K) : matsp K := mkM (nrowblk A) (ncolblk A) nr nc (col_ind A) (row_ptr A) c d.

Lemma dense_D : forall c d I a J b, dense (D c d) I a J b =
    bigsum (row_range A I) (fun q => if rp A q =? J then nth (pos q a b) c 0 else 0)
    + (if I =? J then nth (pos I a b) d 0 else 0).
Proof. reflexivity. Qed.

Lemma step_crs : forall (c d emat : list K) e q I0, I0 < nrowblk A -> In q (row_range A I0) ->
  length c = length (val_crs A) -> (e + nr * nc <= length emat)%nat ->
  wp (add_block K (nr * nc) emat e c (q * (nr * nc))) (fun c' => length c' = length c /\
    forall I a J b, I < nrowblk A -> a < nr -> b < nc -> dense (D c' d) I a J b =
      dense (D c d) I a J b + (if (I0 =? I) && (rp A q =? J) then nth (e + a * nc + b) emat 0 else 0)).
Proof.
  intros c d emat e q I0 HI0 Hq Lc He.
  pose proof (wf_range _ _ WF _ _ HI0 Hq) as Hql.
  eapply wp_mono; [apply add_block_ok; auto|].
  { rewrite Lc. destruct WF as (_ & _ & _ & _ & E & _). rewrite E. nia. }
  intros c' (L & H1 & H2). split; auto. intros I a J b HI Ha Hb. rewrite !dense_D.
  assert (X : forall q', In q' (row_range A I) -> nth (pos q' a b) c' 0 = nth (pos q' a b) c 0 +
     (if q' =? q then nth (e + a * nc + b) emat 0 else 0)).
  { intros q' Hq'. destruct (Nat.eqb_spec q' q) as [->|Hn].
    - rewrite <- !Nat.add_assoc. apply H1. pose proof (idx_lt nc a nr b Ha Hb). lia.
    - rewrite H2; [ring|]. intros i Hi E. destruct (flat_decode nr nc i Hi) as (a' & b' & Ha' & Hb' & ->).
      rewrite Nat.add_assoc in E. apply idx3_inj in E; tauto. }
  rewrite (bigsum_ext _ _ _ _ (fun q' => (if rp A q' =? J then nth (pos q' a b) c 0 else 0) +
     (if q' =? q then (if rp A q =? J then nth (e + a * nc + b) emat 0 else 0) else 0))).
  2:{ intros q' Hq'. rewrite X by auto. destruct (Nat.eqb_spec q' q) as [->|]; destruct (rp A _ =? J); ring. }
  rewrite bigsum_add. destruct (Nat.eqb_spec I0 I) as [<-|Hn].
  - unfold row_range at 2. rewrite bigsum_seq_pick by (apply in_seq in Hq; lia). cbn [andb]. ring.
  - rewrite (bigsum_zero _ _ _ (fun q' => if q' =? q then _ else 0)); [cbn [andb]; ring|].
    intros q' Hq'. destruct (Nat.eqb_spec q' q) as [->|]; auto. exfalso. apply Hn. apply (row_disj _ _ WF I0 I q); auto.
Qed.

Lemma step_dia : forall (c d emat : list K) e I0, I0 < nrowblk A ->
  length d = length (val_dia A) -> (e + nr * nc <= length emat)%nat ->
  wp (add_block K (nr * nc) emat e d (I0 * (nr * nc))) (fun d' => length d' = length d /\
    forall I a J b, I < nrowblk A -> a < nr -> b < nc -> dense (D c d') I a J b =
      dense (D c d) I a J b + (if (I0 =? I) && (I0 =? J) then nth (e + a * nc + b) emat 0 else 0)).
Proof.
  intros c d emat e I0 HI0 Ld He.
  eapply wp_mono; [apply add_block_ok; auto|].
  { rewrite Ld. destruct WF as (_ & _ & _ & _ & _ & E & _). rewrite E. nia. }
  intros d' (L & H1 & H2). split; auto. intros I a J b HI Ha Hb. rewrite !dense_D.
  destruct (Nat.eqb_spec I0 I) as [->|Hn]; cbn [andb].
  - destruct (I =? J); [|ring].
    replace (nth (pos I a b) d' 0) with (nth (pos I a b) d 0 + nth (e + a * nc + b) emat 0); [ring|].
    rewrite <- !Nat.add_assoc. symmetry. apply H1. pose proof (idx_lt nc a nr b Ha Hb). lia.
  - rewrite (H2 (pos I a b)); [ring|].
    intros i Hi E. destruct (flat_decode nr nc i Hi) as (a' & b' & Ha' & Hb' & ->).
    rewrite Nat.add_assoc in E. apply idx3_inj in E; try tauto. destruct E as (E & _). congruence.
Qed.

(** marking and clearing the buffer *)
Lemma mark_ok : forall dbg I (buf : list (option nat)), I < nrowblk A -> length buf = ncolblk A ->
  wp (forn (ci A I) (ci A (I + 1)) (fun jpsup buf =>
          asrt dbg (jpsup <? length (row_ptr A))%nat ;;;
          jblk1 <- vget (row_ptr A) jpsup ;; vset buf jblk1 (Some jpsup)) buf)
   (fun buf' => length buf' = length buf /\ forall J,
      (exists c, In c (row_range A I) /\ rp A c = J /\ nth J buf' None = Some c) \/
      (~ in_pattern A I J /\ nth J buf' None = nth J buf None)).
Proof.
  intros dbg I buf HI HL. rewrite Nat.add_1_r. assert (HM : ci A I <= ci A (S I)) by (destruct WF as (_ & HM & _); auto).
  apply (wp_forn _ (fun i b => length b = length buf /\ forall J,
      (exists c, ci A I <= c < i /\ rp A c = J /\ nth J b None = Some c) \/
      ((forall c, ci A I <= c < i -> rp A c <> J) /\ nth J b None = nth J buf None))); [auto| | |].
  - split; auto. intros J. right. split; auto. intros; lia.
  - intros i b Hi (L & H). assert (Hq : In i (row_range A I)) by (apply in_seq; lia).
    pose proof (wf_range _ _ WF _ _ HI Hq) as Hql. destruct (wf_rp _ _ WF i Hql) as (Ev & Hr).
    apply wp_bind. assert (E : asrt dbg (i <? length (row_ptr A)) = Some tt).
    { unfold asrt. destruct dbg; auto. destruct (Nat.ltb_spec i (length (row_ptr A))); [auto|lia]. }
    rewrite E. apply wp_some. rewrite Ev. cbn [bind]. apply wp_vset; [lia|]. lens. split; auto. intros J.
    rewrite nth_upd by lia. destruct (Nat.eq_dec (rp A i) J) as [<-|Hn].
    + left. exists i. split; [lia|auto].
    + destruct (H J) as [(c & Hc & E1 & E2)|(H1 & H2)].
      * left. exists c. split; [lia|auto].
      * right. split; auto. intros c Hc. destruct (Nat.eq_dec c i) as [->|]; auto. apply H1. lia.
  - intros b (L & H). split; auto. intros J. destruct (H J) as [(c & Hc & E1 & E2)|(H1 & H2)].
    + left. exists c. split; auto. apply in_seq. lia.
    + right. split; auto. intros (c & Hc & E). apply in_seq in Hc. apply (H1 c); auto. lia.
Qed.
Lemma unmark_ok : forall dbg I (buf : list (option nat)), I < nrowblk A -> length buf = ncolblk A ->
  wp (forn (ci A I) (ci A (I + 1)) (fun jpsup buf =>
          asrt dbg (jpsup <? length (row_ptr A))%nat ;;;
          jblk1 <- vget (row_ptr A) jpsup ;; vset buf jblk1 None) buf)
   (fun buf' => length buf' = length buf /\ forall J,
      (in_pattern A I J -> nth J buf' None = None) /\
      (~ in_pattern A I J -> nth J buf' None = nth J buf None)).
Proof.
  intros dbg I buf HI HL. rewrite Nat.add_1_r. assert (HM : ci A I <= ci A (S I)) by (destruct WF as (_ & HM & _); auto).
  apply (wp_forn _ (fun i b => length b = length buf /\ forall J,
      ((exists c, ci A I <= c < i /\ rp A c = J) -> nth J b None = None) /\
      ((forall c, ci A I <= c < i -> rp A c <> J) -> nth J b None = nth J buf None))); [auto| | |].
  - split; auto. intros J. split; auto. intros (c & Hc & _). lia.
  - intros i b Hi (L & H). assert (Hq : In i (row_range A I)) by (apply in_seq; lia).
    pose proof (wf_range _ _ WF _ _ HI Hq) as Hql. destruct (wf_rp _ _ WF i Hql) as (Ev & Hr).
    apply wp_bind. assert (E : asrt dbg (i <? length (row_ptr A)) = Some tt).
    { unfold asrt. destruct dbg; auto. destruct (Nat.ltb_spec i (length (row_ptr A))); [auto|lia]. }
    rewrite E. apply wp_some. rewrite Ev. cbn [bind]. apply wp_vset; [lia|]. lens. split; auto. intros J.
    rewrite nth_upd by lia. destruct (Nat.eq_dec (rp A i) J) as [<-|Hn].
    + split; auto. intros H1. exfalso. apply (H1 i); auto. lia.
    + destruct (H J) as (H1 & H2). split.
      * intros (c & Hc & E1). apply H1. exists c. split; auto. destruct (Nat.eq_dec c i); [subst; tauto|lia].
      * intros H3. apply H2. intros c Hc. apply H3. lia.
  - intros b (L & H). split; auto. intros J. destruct (H J) as (H1 & H2). split.
    + intros (c & Hc & E). apply in_seq in Hc. apply H1. exists c. split; auto. lia.
    + intros H3. apply H2. intros c Hc E. apply H3. exists c. split; auto. apply in_seq. lia.
Qed.

Variables (dbg : bool) (fill : option nat) (rows cols : list nat) (emat : list K).
Notation row i := (nth i rows 0%nat).
Notation col j := (nth j cols 0%nat).
Notation ncl := (length cols).
Hypothesis HR : forall i, i < length rows -> row i < nrowblk A.
Hypothesis HC : forall j, j < length cols -> col j < ncolblk A.
Hypothesis HE : length emat = (length rows * length cols * (nr * nc))%nat.
Hypothesis HDG : forall i j, i < length rows -> j < length cols -> row i = col j -> i = j.
Definition needed := forall i j, i < length rows -> j < length cols -> row i <> col j -> in_pattern A (row i) (col j).
Definition term I a J b (i j : nat) : K :=
  if (row i =? I) && (col j =? J) then nth ((i * ncl + j) * (nr * nc) + a * nc + b) emat 0 else 0.

Lemma e_le : forall i j, i < length rows -> j < length cols -> (i * ncl + j) * (nr * nc) + nr * nc <= length emat.
Proof.
  intros i j Hi Hj. rewrite HE. pose proof (idx_lt ncl i (length rows) j Hi Hj). nia.
Qed.

Lemma merge_ok : forall buf,
  (dbg = true -> length (val_crs A) <> 0%nat /\ length (val_dia A) <> 0%nat) ->
  needed \/ (dbg = false /\ forall J, nth J (vresize fill buf (ncolblk A)) None = None) ->
  wp (merge_core K dbg fill A rows cols (nr * nc) emat buf) (fun r =>
    (needed -> fst r = true) /\
    (fst r = false -> exists i j, i < length rows /\ j < length cols /\ row i <> col j /\ ~ in_pattern A (row i) (col j)) /\
    (fst r = true -> needed /\
      same_pattern A (fst (snd r)) /\ wf (fst (snd r)) /\
      (forall I a J b, I < nrowblk A -> a < nr -> b < nc -> dense (fst (snd r)) I a J b =
         dense A I a J b + sumn (length rows) (fun i => sumn (length cols) (fun j => term I a J b i j))) /\
      length (snd (snd r)) = ncolblk A /\
      (forall J, nth J (snd (snd r)) None = None \/ nth J (snd (snd r)) None = nth J (vresize fill buf (ncolblk A)) None))).
Proof.
  intros buf0 Hemp Hmode. unfold merge_core.
  apply wp_bind. assert (E1 : asrt dbg (negb (length (val_crs A) =? 0)) = Some tt).
  { unfold asrt. destruct dbg; auto. destruct (Hemp eq_refl) as (X & _). destruct (Nat.eqb_spec (length (val_crs A)) 0); auto. lia. }
  rewrite E1. apply wp_some. apply wp_bind. assert (E2 : asrt dbg (negb (length (val_dia A) =? 0)) = Some tt).
  { unfold asrt. destruct dbg; auto. destruct (Hemp eq_refl) as (_ & X). destruct (Nat.eqb_spec (length (val_dia A)) 0); auto. lia. }
  rewrite E2. apply wp_some. clear E1 E2 Hemp. cbv zeta. apply wp_bind.
  set (buf1 := vresize fill buf0 (ncolblk A)) in *.
  assert (LB : length buf1 = ncolblk A) by apply vresize_length.
  pose (miss := exists i j, i < length rows /\ j < length cols /\ row i <> col j /\ ~ in_pattern A (row i) (col j)).
  pose (Bad := fun s : bool * (list K * list K * list (option nat)) => fst s = false /\ miss).
  pose (Good := fun n (s : bool * (list K * list K * list (option nat))) =>
     fst s = true /\
     (forall i j, i < n -> j < length cols -> row i <> col j -> in_pattern A (row i) (col j)) /\
     length (fst (fst (snd s))) = length (val_crs A) /\ length (snd (fst (snd s))) = length (val_dia A) /\
     (forall I a J b, I < nrowblk A -> a < nr -> b < nc ->
        dense (D (fst (fst (snd s))) (snd (fst (snd s)))) I a J b =
        dense A I a J b + sumn n (fun i => sumn (length cols) (fun j => term I a J b i j))) /\
     length (snd (snd s)) = ncolblk A /\
     (forall J, nth J (snd (snd s)) None = None \/ nth J (snd (snd s)) None = nth J buf1 None)).
  apply (wp_forb' _ Good (fun s => Bad s \/ Good (length rows) s)); [lia| | | |].
  - repeat split; auto; [intros; lia|]. intros. rewrite sumn_0. cbn [fst snd]. change (dense (D (val_crs A) (val_dia A)) I a J b) with (dense A I a J b). ring.
  - intros i s Hi (G1 & G0 & G2 & G3 & G4 & G5 & G6). destruct s as (ok & ((c & d) & buf)). cbn [fst snd] in *.
    rewrite (vget_nth _ 0%nat) by lia. cbn [bind]. pose proof (HR i ltac:(lia)) as HI0.
    apply wp_bind. assert (E : asrt dbg (row i <? nrowblk A) = Some tt).
    { unfold asrt. destruct dbg; auto. destruct (Nat.ltb_spec (row i) (nrowblk A)); [auto|lia]. }
    rewrite E. apply wp_some. clear E. rewrite !(wf_ci _ _ WF) by lia. cbn [bind].
    apply wp_bind. eapply wp_mono; [apply mark_ok; auto|]. intros buf2 (L2 & H2). apply wp_bind.
    pose (Good2 := fun m (s : bool * (list K * list K)) =>
     fst s = true /\
     (forall j, j < m -> row i <> col j -> in_pattern A (row i) (col j)) /\
     length (fst (snd s)) = length (val_crs A) /\ length (snd (snd s)) = length (val_dia A) /\
     (forall I a J b, I < nrowblk A -> a < nr -> b < nc ->
        dense (D (fst (snd s)) (snd (snd s))) I a J b =
        dense (D c d) I a J b + sumn m (fun j => term I a J b i j))).
    apply (wp_forb' _ Good2 (fun s => (fst s = false /\ miss) \/ Good2 (length cols) s)); [lia| | | |].
    + repeat split; auto; [intros; lia|]. intros. rewrite sumn_0. cbn [fst snd]. ring.
    + intros j s Hj (F1 & F0 & F2 & F3 & F4). destruct s as (ok' & (c1 & d1)). cbn [fst snd] in *.
      rewrite (vget_nth _ 0%nat) by lia. cbn [bind]. pose proof (HC j ltac:(lia)) as HJ0.
      apply wp_bind. assert (E : asrt dbg (col j <? ncolblk A) = Some tt).
      { unfold asrt. destruct dbg; auto. destruct (Nat.ltb_spec (col j) (ncolblk A)); [auto|lia]. }
      rewrite E. apply wp_some. clear E.
      destruct (Nat.eqb_spec (row i) (col j)) as [Ed|Ed].
      * assert (i = j) by (apply HDG; auto; lia). subst j. apply wp_bind.
        eapply wp_mono; [apply (step_dia c1); auto; apply e_le; lia|].
        intros d2 (Ld & Hd). apply wp_some. cbn [fst snd]. split; [auto|]. cbn [fst snd].
        split; [intros j' Hj' Hne; destruct (Nat.eq_dec j' i) as [->|]; [congruence|apply F0; auto; lia]|]. split; auto. split; [congruence|].
        intros I a J b HI Ha Hb. rewrite Hd, F4, sumn_S by auto. unfold term at 3. rewrite Ed. ring.
      * rewrite (vget_nth _ None) by lia. cbn [bind].
        destruct (H2 (col j)) as [(q & Hq & E1 & E2)|(Hni & E2)].
        -- rewrite E2. pose proof (wf_range _ _ WF _ _ HI0 Hq) as Hql. destruct (wf_rp _ _ WF q Hql) as (Ev & _).
           apply wp_bind. assert (E : asrt dbg (q <? length (row_ptr A)) = Some tt).
           { unfold asrt. destruct dbg; auto. destruct (Nat.ltb_spec q (length (row_ptr A))); [auto|lia]. }
           rewrite E. apply wp_some. clear E. apply wp_bind.
           replace (if dbg then r <- vget (row_ptr A) q ;; assertb (r =? col j) else Some tt) with (Some tt).
           2:{ destruct dbg; auto. rewrite Ev. cbn [bind]. rewrite E1, Nat.eqb_refl. auto. }
           apply wp_some. apply wp_bind. eapply wp_mono; [apply (step_crs c1 d1 emat _ q (row i)); auto; apply e_le; lia|].
           intros c2 (Lc & Hc). apply wp_some. cbn [fst snd]. split; [auto|]. cbn [fst snd].
           split; [intros j' Hj' Hne; destruct (Nat.eq_dec j' j) as [->|]; [exists q; auto|apply F0; auto; lia]|]. split; [congruence|]. split; auto.
           intros I a J b HI Ha Hb. rewrite Hc, F4, sumn_S by auto. unfold term at 3. rewrite E1. ring.
        -- assert (Hmiss : miss) by (exists i, j; repeat split; auto; lia).
           destruct Hmode as [Hn|(Hd & Hcl)].
           { exfalso. apply Hni. apply Hn; auto; lia. }
           assert (Hz : nth (col j) buf2 None = None).
           { rewrite E2. destruct (G6 (col j)) as [->| ->]; auto. }
           rewrite Hz. rewrite Hd. unfold asrt. cbn [bind]. apply wp_some. cbn [fst snd]. left. auto.
    + intros s H. auto.
    + intros s Hs. destruct s as (ok' & (c2 & d2)). cbn [fst snd] in *. destruct Hs as [(Eo & Hm)|(F1 & F0 & F2 & F3 & F4)]; cbn [fst snd] in *.
      * subst ok'. apply wp_some. cbn [fst snd]. left. split; auto.
      * subst ok'. apply wp_bind. eapply wp_mono; [apply unmark_ok; auto; lia|]. intros buf3 (L3 & H3). apply wp_some.
        cbn [fst snd]. repeat split; cbn [fst snd]; auto; try congruence.
        -- intros i' j Hi' Hj Hne. destruct (Nat.eq_dec i' i) as [->|]; [auto|apply G0; auto; lia].
        -- intros I a J b HI Ha Hb. rewrite F4, G4, sumn_S by auto. ring.
        -- intros J. destruct (H3 J) as (X1 & X2). destruct (H2 J) as [(q & Hq & E1 & _)|(Hni & E2)].
           ++ left. apply X1. exists q. auto.
           ++ rewrite X2, E2 by auto. apply G6.
  - intros s H. auto.
  - intros s Hs. destruct s as (ok & ((c & d) & buf)). apply wp_some. cbn [fst snd]. destruct Hs as [(Eo & Hm)|(G1 & G0 & G2 & G3 & G4 & G5 & G6)]; cbn [fst snd] in *.
    + subst ok. split; [|split; [auto|discriminate]]. intros Hn. exfalso. destruct Hm as (i & j & Hi & Hj & Hne & Hni).
      apply Hni. apply Hn; auto.
    + subst ok. split; auto. split; [discriminate|]. intros _. split; [exact G0|]. destruct (dense_mk K A WF c d G2 G3) as (X1 & X2 & _).
      split; [exact X1|]. split; [exact X2|]. split; auto.
Qed.
End P.
